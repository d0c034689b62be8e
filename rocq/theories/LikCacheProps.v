(* C39: the derivative cache of the likelihood *)
From Coq Require Import List ZArith Reals Lia Lra Bool.
From Coquelicot Require Import Complex Hierarchy Derive.
From Verif Require Import ArrayModel PathModel CGBoxModel FitErrModel LikParModel LikParProofs LikParProps LikModel LikGradProofs LikGradProps.
Import ListNotations.
Open Scope R_scope.

(* evaluation calls with an array of the length of the parameters; the setters are excluded *)
Definition evalCall (lk : lik) (c : call) : Prop :=
  match c with
  | CallGradient par | CallFdF par | CallDoDerivative par _ | CallDoEval par => Z.of_nat (length par) = nmbPars (lkShape lk)
  | _ => False
  end.
(* what the cache holds: nothing but the zeros of init, or a point and the gradient there *)
Definition cacheOk (lk : lik) (c : cache) : Prop :=
  c = cacheInit lk \/ (Z.of_nat (length (caPar c)) = nmbPars (lkShape lk) /\ gradient lk (caPar c) = Some (caDeriv c)).

Lemma samePar_eq a : forall b, length a = length b -> (samePar a b = true <-> a = b).
Proof.
  induction a as [|x a IH]; intros [|y b] H; cbn in *; try discriminate; [tauto|]. destruct (Req_EM_T x y) as [->|Hn].
  - rewrite IH by lia. split; [now intros ->|now inversion 1].
  - split; [discriminate|inversion 1; congruence].
Qed.
Lemma firstn_pars lk (par : list R) : Z.of_nat (length par) = nmbPars (lkShape lk) -> firstn (Z.to_nat (nmbPars (lkShape lk))) par = par.
Proof. intros H. rewrite firstn_all2; [reflexivity|lia]. Qed.
Lemma cache_len lk c : cacheOk lk c -> Z.of_nat (length (caPar c)) = nmbPars (lkShape lk).
Proof. intros [->|[H _]]; [|exact H]. cbn. rewrite repeat_length. rewrite nmbPars_comps. lia. Qed.

Lemma fdF_gradient lk par v g : fdF lk par = Some (v, g) -> gradient lk par = Some g.
Proof. rewrite C37_FdF_agrees. destruct (doEval lk par); [|discriminate]. cbn [bnd]. destruct (gradient lk par); [|discriminate]. cbn [bnd]. now inversion 1. Qed.
Lemma gradient_fdF lk par g : gradient lk par = Some g -> exists v, fdF lk par = Some (v, g).
Proof.
  intros H. rewrite C37_FdF_agrees. unfold doEval. unfold gradient in *. destruct (copyFromParArray (lkShape lk) par); [|discriminate]. cbn [bnd] in *. rewrite H. cbn [bnd]. eauto.
Qed.

Lemma step_ok lk c ca s : cacheOk lk ca -> evalCall lk c -> step (lk, ca) c = Some s -> fst s = lk /\ cacheOk lk (snd s).
Proof.
  intros Hc He Hs. destruct c as [par|par|par i|par|b|p|g]; cbn [evalCall] in He; try contradiction; cbn [step] in Hs.
  - unfold runGradient in Hs. destruct (gradient lk par) as [g|] eqn:E; [|discriminate]. cbn in Hs. inversion Hs; subst. cbn. split; [reflexivity|]. right. cbn. rewrite firstn_pars by exact He. auto.
  - unfold runFdF in Hs. destruct (fdF lk par) as [[v g]|] eqn:E; [|discriminate]. cbn in Hs. inversion Hs; subst. cbn. split; [reflexivity|]. right. cbn. rewrite firstn_pars by exact He. split; [exact He|]. now apply fdF_gradient in E.
  - unfold doDerivative in Hs. destruct (samePar (caPar ca) par).
    + destruct (rd (caDeriv ca) i); [|discriminate]. cbn in Hs. inversion Hs; subst. auto.
    + unfold runFdF in Hs. destruct (fdF lk par) as [[v g]|] eqn:E; [|discriminate]. cbn [bnd fst snd] in Hs. destruct (rd g i); [|discriminate]. cbn in Hs. inversion Hs; subst. cbn. split; [reflexivity|].
      right. cbn. rewrite firstn_pars by exact He. split; [exact He|]. now apply fdF_gradient in E.
  - destruct (doEval lk par); [|discriminate]. cbn in Hs. inversion Hs; subst. auto.
Qed.
Lemma run_ok lk l : forall ca s, cacheOk lk ca -> (forall c, In c l -> evalCall lk c) -> run (lk, ca) l = Some s -> fst s = lk /\ cacheOk lk (snd s).
Proof.
  unfold run. induction l as [|c l IH]; intros ca s Hc Hl H; cbn [foldO] in H; [inversion H; subst; auto|].
  destruct (step (lk, ca) c) as [[lk' ca']|] eqn:E; [|discriminate]. cbn [bnd] in H. apply step_ok in E; auto using in_eq. destruct E as [E1 E2]. cbn in E1, E2. subst lk'. apply (IH ca'); auto. intros; apply Hl; now right.
Qed.

(* C39: after any history of evaluations, DoDerivative(par, i) returns element i of the
   gradient at par; at the point 0 this may fail as long as nothing has been evaluated,
   because init fills both caches with 0 *)
Theorem C39_cached_derivative : forall lk l s par g i d,
  (forall c, In c l -> evalCall lk c) -> run (lk, cacheInit lk) l = Some s ->
  Z.of_nat (length par) = nmbPars (lkShape lk) -> gradient lk par = Some g -> nth_error g i = Some d ->
  ((exists x, In x par /\ x <> 0) \/ (exists c, In c l /\ match c with CallGradient _ | CallFdF _ => True | _ => False end)) ->
  exists c', doDerivative (fst s) (snd s) par i = Some (c', d).
Proof.
  intros lk l s par g i d Hl Hr Hlen Hg Hi Hz.
  destruct (run_ok lk l (cacheInit lk) s (or_introl eq_refl) Hl Hr) as [E Hok]. destruct s as [lk' ca]. cbn in E, Hok. subst lk'. cbn [fst snd].
  unfold doDerivative. pose proof (cache_len lk ca Hok) as Hcl. destruct (samePar (caPar ca) par) eqn:Es.
  - apply samePar_eq in Es; [|lia]. destruct Hok as [->|[_ Hca]].
    + (* the cache is still the initial one *)
      assert (Hz2 : exists c, In c l /\ match c with CallGradient _ | CallFdF _ => True | _ => False end).
      { destruct Hz as [(x & Hx & Hx0)|H]; [|exact H]. exfalso. apply Hx0. rewrite <- Es in Hx. cbn in Hx. now apply repeat_spec in Hx. }
      (* then Gradient or FdF was called before, and the cache holds a gradient *)
      assert (Hgen : forall l ca0 s, cacheOk lk ca0 -> (forall c, In c l -> evalCall lk c) -> run (lk, ca0) l = Some s ->
                ((exists c, In c l /\ match c with CallGradient _ | CallFdF _ => True | _ => False end) \/ gradient lk (caPar ca0) = Some (caDeriv ca0)) -> gradient lk (caPar (snd s)) = Some (caDeriv (snd s))).
      { clear - lk. unfold run. induction l as [|c l IH]; intros ca0 s Hc Hl H Hex; cbn [foldO] in H.
        - inversion H; subst. destruct Hex as [(c & [] & _)|Hex]; exact Hex.
        - destruct (step (lk, ca0) c) as [[lk1 ca1]|] eqn:E; [|discriminate]. cbn [bnd] in H.
          assert (E' := E). apply step_ok in E'; auto using in_eq. destruct E' as [E1 E2]. cbn in E1, E2. subst lk1. apply (IH ca1 s E2); auto; [intros; apply Hl; now right|].
          pose proof (Hl c (or_introl eq_refl)) as He.
          assert (Hnow : match c with CallGradient _ | CallFdF _ => True | _ => False end \/ gradient lk (caPar ca0) = Some (caDeriv ca0) -> gradient lk (caPar ca1) = Some (caDeriv ca1)).
          { intros Hor. destruct c as [p|p|p j|p|b|p|g0]; cbn [evalCall] in He; try contradiction; cbn [step] in E.
            - unfold runGradient in E. destruct (gradient lk p) as [g1|] eqn:Eg; [|discriminate]. cbn in E. inversion E; subst. cbn. now rewrite firstn_pars.
            - unfold runFdF in E. destruct (fdF lk p) as [[v1 g1]|] eqn:Eg; [|discriminate]. cbn in E. inversion E; subst. cbn. rewrite firstn_pars by exact He. now apply fdF_gradient in Eg.
            - destruct Hor as [[]|Hor]. unfold doDerivative in E. destruct (samePar (caPar ca0) p).
              + destruct (rd (caDeriv ca0) j); [|discriminate]. cbn in E. inversion E; subst. exact Hor.
              + unfold runFdF in E. destruct (fdF lk p) as [[v1 g1]|] eqn:Eg; [|discriminate]. cbn [bnd fst snd] in E. destruct (rd g1 j); [|discriminate]. cbn in E. inversion E; subst. cbn. rewrite firstn_pars by exact He. now apply fdF_gradient in Eg.
            - destruct Hor as [[]|Hor]. destruct (doEval lk p); [|discriminate]. cbn in E. inversion E; subst. exact Hor. }
          destruct Hex as [(c' & [->|Hc'] & Hk)|Hex]; [right; now apply Hnow; left|left; eauto|right; now apply Hnow; right]. }
      specialize (Hgen l (cacheInit lk) (lk, cacheInit lk) (or_introl eq_refl) Hl Hr (or_introl Hz2)). cbn [snd] in Hgen.
      rewrite Es, Hg in Hgen. assert (Hgen' : caDeriv (cacheInit lk) = g) by congruence. unfold rd. rewrite Hgen', Hi. cbn [bnd]. eauto.
    + rewrite Es, Hg in Hca. injection Hca as Hca. unfold rd. rewrite <- Hca, Hi. cbn [bnd]. eauto.
  - unfold runFdF. destruct (gradient_fdF lk par g Hg) as [v Hv]. rewrite Hv. cbn [bnd fst snd]. unfold rd. rewrite Hi. cbn [bnd]. eauto.
Qed.

(* C39, the point 0 on a fresh object: DoDerivative returns the 0 of the cache whatever the
   gradient is; here the gradient is not a number *)
Theorem C39_fresh_cache_refuted : exists lk par g c, setUp lk /\ hermitian lk /\ Z.of_nat (length par) = nmbPars (lkShape lk) /\
  gradient lk par = Some g /\ nth_error g 0 = Some None /\ doDerivative lk (cacheInit lk) par 0 = Some (c, Some 0).
Proof.
  exists (lik1 FLAT), [0; 0]. pose proof (gradient_spec (lik1 FLAT) [0; 0] _ _ (lik1_setUp _) eq_refl (lik1_from 0 0)) as Hg.
  eexists. eexists. split; [apply lik1_setUp|]. split; [apply lik1_hermitian|]. split; [reflexivity|]. split; [exact Hg|]. split.
  - cbn. unfold derivative. cbn [lkEvts lik1 osum]. rewrite lik1_evt. unfold odiv. destruct (Req_EM_T (0 * 0 + 0 * 0) 0) as [_|n]; [reflexivity|exfalso; apply n; ring].
  - unfold doDerivative. change (caPar (cacheInit (lik1 FLAT))) with [0; 0]. rewrite (proj2 (samePar_eq [0; 0] [0; 0] eq_refl) eq_refl). reflexivity.
Qed.

(* C39 refuted for histories that change the prior: the cached derivative of the old prior is
   returned *)
Theorem C39_setter_keeps_cache_refuted : exists lk par p s g d c',
  setUp lk /\ hermitian lk /\ Z.of_nat (length par) = nmbPars (lkShape lk) /\
  run (lk, cacheInit lk) [CallGradient par; CallSetPriorType p] = Some s /\
  gradient (fst s) par = Some g /\ nth_error g 0 = Some (Some d) /\
  doDerivative (fst s) (snd s) par 0 = Some c' /\ snd c' <> Some d.
Proof.
  exists (lik1 FLAT), [2; 1], HALF_CAUCHY.
  pose proof (gradient_spec (lik1 FLAT) [2; 1] _ _ (lik1_setUp _) eq_refl (lik1_from 2 1)) as Hf.
  pose proof (gradient_spec (lik1 HALF_CAUCHY) [2; 1] _ _ (lik1_setUp _) eq_refl (lik1_from 2 1)) as Hg.
  set (P := upd (fun _ => RtoC 0) (0, 1, 0)%nat (2, 0)) in *.
  assert (D1 : derivative (lik1 FLAT) P 1 true (0, 1, 0)%nat = Some (derR (lik1 FLAT) P 1 true (0, 1, 0)%nat)) by (apply derivative_some; [apply lik1_pos; lra|discriminate]).
  assert (D2 : derivative (lik1 HALF_CAUCHY) P 1 true (0, 1, 0)%nat = Some (derR (lik1 HALF_CAUCHY) P 1 true (0, 1, 0)%nat)).
  { apply derivative_some; [apply lik1_pos; lra|]. intros _. split; [cbn; lra|]. unfold P, upd, RtoC. cbn. intros E. inversion E. lra. }
  set (gf := map _ _ ++ [_]) in Hf.
  exists (lik1 HALF_CAUCHY, Cache [2; 1] gf). eexists. exists (derR (lik1 HALF_CAUCHY) P 1 true (0, 1, 0)%nat). exists (Cache [2; 1] gf, Some (derR (lik1 FLAT) P 1 true (0, 1, 0)%nat)).
  split; [apply lik1_setUp|]. split; [apply lik1_hermitian|]. split; [reflexivity|]. split; [|split; [exact Hg|split; [|split]]].
  - unfold run. cbn [foldO step]. unfold runGradient. rewrite Hf. cbn [bnd fst]. reflexivity.
  - change (Some (derivative (lik1 HALF_CAUCHY) P 1 true (0, 1, 0)%nat) = Some (Some (derR (lik1 HALF_CAUCHY) P 1 true (0, 1, 0)%nat))). now rewrite D2.
  - unfold doDerivative. cbn [fst snd caPar]. rewrite (proj2 (samePar_eq [2; 1] [2; 1] eq_refl) eq_refl). cbn [caDeriv]. unfold gf, rd.
    change (nth_error _ 0) with (Some (derivative (lik1 FLAT) P 1 true (0, 1, 0)%nat)). rewrite D1. reflexivity.
  - cbn [snd]. intros E. assert (E' : derR (lik1 FLAT) P 1 true (0, 1, 0)%nat = derR (lik1 HALF_CAUCHY) P 1 true (0, 1, 0)%nat) by congruence. clear E. rename E' into E.
    assert (Q : forall p, derR (lik1 p) P 1 true (0, 1, 0)%nat = derR (lik1 FLAT) P 1 true (0, 1, 0)%nat - priorDR (lik1 p) P true (0, 1, 0)%nat).
    { intros p. unfold derR. change (priorDR (lik1 FLAT) P true (0, 1, 0)%nat) with 0. change (evtLik (lik1 p)) with (evtLik (lik1 FLAT)). change (evtDeriv (lik1 p)) with (evtDeriv (lik1 FLAT)).
      change (normDer (lik1 p)) with (normDer (lik1 FLAT)). change (lkEvts (lik1 p)) with (lkEvts (lik1 FLAT)). change (nmbEvt (lik1 p)) with (nmbEvt (lik1 FLAT)). ring. }
    rewrite (Q HALF_CAUCHY) in E.
    assert (E0 : priorDR (lik1 HALF_CAUCHY) P true (0, 1, 0)%nat = 0) by lra. unfold priorDR in E0. cbn [lkPrior lik1] in E0. unfold wgt, normSq, P, upd, partOf in E0. cbn in E0.
    replace (-2 / (1 * 1 + (2 * 2 + 0 * 0)) * 2) with (-4 / 5) in E0 by field. lra.
Qed.

(* the hypotheses of C39_cached_derivative hold for a history with a hit and a miss *)
Example C39_ex : forall c, In c [CallGradient [2; 1]; CallDoDerivative [2; 1] 0; CallDoDerivative [3; 1] 1] -> evalCall (lik1 FLAT) c.
Proof. intros c [<-|[<-|[<-|[]]]]; reflexivity. Qed.
