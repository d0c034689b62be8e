(* Proofs about GpuModel: what the kernels compute. *)
From Coq Require Import List ZArith Reals Bool Lia Lra Permutation.
From Coquelicot Require Import Complex.
From Verif Require Import ArrayModel ArraySpec ArrayProofs CGBoxModel CGBoxProofs FitErrModel LikParModel LikParProofs LikModel SumAccProofs LikSetProofs ResTransProps GpuModel GpuProofs.
Import ListNotations.
Open Scope nat_scope.

(* the indices j < n that thread t of s handles *)
Definition class (s t n : nat) : list nat := filter (fun j => j mod s =? t) (seq 0 n).
Lemma class_In s t n j : In j (class s t n) -> j < n.
Proof. intros H. apply filter_In in H as [H _]. apply in_seq in H. lia. Qed.

Lemma class_sum {T} (ar : arith T) (M : monoid ar) F s n : 0 < s -> lsum ar (fun t => lsum ar F (class s t n)) (seq 0 s) = lsum ar F (seq 0 n).
Proof. exact (lsum_classes ar M F s (seq 0 n)). Qed.

Lemma off3 a b c d0 d1 d2 : indicesToOffset [a; b; c] [d0; d1; d2] 3 = Some (rowMajor [d0; d1; d2] [a; b; c]).
Proof. exact (i2o_correct d0 [d1; d2] [a; b; c] eq_refl). Qed.
Lemma off4 a b c d d0 d1 d2 d3 : indicesToOffset [a; b; c; d] [d0; d1; d2; d3] 4 = Some (rowMajor [d0; d1; d2; d3] [a; b; c; d]).
Proof. exact (i2o_correct d0 [d1; d2; d3] [a; b; c; d] eq_refl). Qed.

(* strided compensated sums *)
Lemma strided_sum {T} (ar : arith T) (M : monoid ar) (body : nat -> T * T -> option (T * T)) F n s t : t < s ->
  (forall i st, i < n -> body i st = Some (compensatedSum ar (F i) st)) ->
  exists c, strided n body t n s (zero ar, zero ar) = Some (lsum ar F (class s t n), c).
Proof.
  intros Ht H. rewrite strided_class by exact Ht.
  destruct (comp_fold ar M body F (class s t n)) as (c & E & _). { intros i st Hi. apply H. now apply class_In in Hi. }
  exists c. exact E.
Qed.
Lemma lsum_osum F n : lsum arD F (seq 0 n) = osum F n.
Proof.
  induction n as [|n IH]; [reflexivity|]. rewrite seq_S, (lsum_app _ monoidD), IH. cbn [lsum osum]. rewrite (mo_zero _ monoidD). reflexivity.
Qed.
Lemma lsum_csum f n : lsum arC (fun w => ofC (f w)) (seq 0 n) = ofC (csumN f n).
Proof.
  induction n as [|n IH]; [reflexivity|]. rewrite seq_S, (lsum_app _ monoidC), IH. cbn [lsum csumN]. rewrite (mo_zero _ monoidC). reflexivity.
Qed.
Lemma lsum_rsum f n : lsum arD (fun w => Some (f w)) (seq 0 n) = Some (rsumN f n).
Proof.
  induction n as [|n IH]; [reflexivity|]. rewrite seq_S, (lsum_app _ monoidD), IH. cbn [lsum rsumN]. rewrite (mo_zero _ monoidD). reflexivity.
Qed.

(* nested loops *)
Definition pairs (n : nat) : list (nat * nat) := flat_map (fun r => map (fun e => (r, e)) [0; 1]) (seq 0 n).
Lemma pairs_In n r e : In (r, e) (pairs n) <-> r < n /\ e < 2.
Proof.
  unfold pairs. rewrite in_flat_map. split.
  - intros (x & Hx & H). apply in_seq in Hx. cbn in H. destruct H as [H|[H|[]]]; injection H as <- <-; lia.
  - intros [Hr He]. exists r. split; [apply in_seq; lia|]. cbn. destruct e as [|[|e]]; [now left|right; now left|lia].
Qed.
Lemma foldO_map {A B D} (f : D -> A -> option A) (g : B -> D) l a : foldO f (map g l) a = foldO (fun x a => f (g x) a) l a.
Proof. revert a. induction l as [|x l IH]; intros a; [reflexivity|]. cbn [map foldO]. destruct (f (g x) a); [cbn [bnd]; apply IH|reflexivity]. Qed.
Lemma foldO_nest {A} (f : nat -> nat -> A -> option A) n a :
  foldO (fun r a => foldO (f r) [0; 1] a) (seq 0 n) a = foldO (fun p a => f (fst p) (snd p) a) (pairs n) a.
Proof.
  unfold pairs. revert a. generalize (seq 0 n). intros l. induction l as [|r l IH]; intros a; [reflexivity|].
  cbn [flat_map]. rewrite foldO_app. cbn [foldO map fst snd bnd]. destruct (f r 0 a) as [a1|]; [cbn [bnd]|reflexivity].
  destruct (f r 1 a1) as [a2|]; [cbn [bnd]|reflexivity]. apply IH.
Qed.
Lemma lsum_pairs (g : nat -> nat -> R) n : lsum arD (fun p => Some (g (fst p) (snd p))) (pairs n) = Some (rsumN (fun r => rsumN (g r) 2) n).
Proof.
  induction n as [|n IH]; [reflexivity|]. unfold pairs in *. rewrite seq_S, flat_map_app, (lsum_app _ monoidD), IH. cbn. f_equal. ring.
Qed.
Lemma flat_map_cut {A} (f : nat -> list A) n m : n <= m -> flat_map (fun i => if i <? n then f i else []) (seq 0 m) = flat_map f (seq 0 n).
Proof.
  intros H. replace m with (n + (m - n)) by lia. rewrite seq_app, flat_map_app.
  assert (E : forall l, (forall i, In i l -> n <= i) -> flat_map (fun i => if i <? n then f i else []) l = []).
  { induction l as [|x l IH]; intros Hl; [reflexivity|]. cbn [flat_map]. destruct (Nat.ltb_spec x n); [specialize (Hl x (or_introl eq_refl)); lia|]. cbn [app]. apply IH. intros i Hi. apply Hl. now right. }
  rewrite (E (seq (0 + n) (m - n))) by (intros i Hi; apply in_seq in Hi; lia). rewrite app_nil_r.
  assert (E2 : forall l, (forall i, In i l -> i < n) -> flat_map (fun i => if i <? n then f i else []) l = flat_map f l).
  { induction l as [|x l IH]; intros Hl; [reflexivity|]. cbn [flat_map]. destruct (Nat.ltb_spec x n); [|specialize (Hl x (or_introl eq_refl)); lia]. f_equal. apply IH. intros i Hi. apply Hl. now right. }
  apply E2. intros i Hi. apply in_seq in Hi. lia.
Qed.
Lemma map_flat_map' {A B D} (h : B -> D) (f : A -> list B) l : map h (flat_map f l) = flat_map (fun x => map h (f x)) l.
Proof. induction l as [|x l IH]; [reflexivity|]. cbn. now rewrite map_app, IH. Qed.
Lemma flat_map_flat_map' {A B D} (h : B -> list D) (f : A -> list B) l : flat_map h (flat_map f l) = flat_map (fun x => flat_map h (f x)) l.
Proof. induction l as [|x l IH]; [reflexivity|]. cbn. now rewrite flat_map_app, IH. Qed.
Lemma flat_map_single {A B} (f : A -> B) l : flat_map (fun x => [f x]) l = map f l.
Proof. induction l as [|x l IH]; [reflexivity|]. cbn. now rewrite IH. Qed.
Lemma flat_map_ext_In {A B} (f g : A -> list B) l : (forall x, In x l -> f x = g x) -> flat_map f l = flat_map g l.
Proof. induction l as [|x l IH]; intros H; [reflexivity|]. cbn. rewrite H by now left. rewrite IH by (intros; apply H; now right). reflexivity. Qed.

(* ---- one value per thread ---- *)
Lemma launch_values dv k grid thread (V : nat -> double) m : gridOk dv k grid -> m <= fst grid * snd grid ->
  (forall id, id < fst grid * snd grid -> thread id (fst grid * snd grid) = Some (if id <? m then [(id, V id)] else [])) ->
  exists next, det (launch dv k grid thread dwrite (dalloc (1 * m))) next /\ length next = 1 * m /\ forall i, i < m -> dread next i = Some (V i).
Proof.
  intros Hg Hm Hth. destruct (launch_det dv k grid thread (dalloc (1 * m)) (fun id => if id <? m then [(id, V id)] else []) Hg Hth) as (next & D & L & R).
  - rewrite (flat_map_cut (fun id => [(id, V id)])) by exact Hm. rewrite flat_map_single, map_map. cbn [fst]. rewrite map_id. apply seq_NoDup.
  - intros id w _. destruct (Nat.ltb_spec id m); [|intros []]. intros [<-|[]]. unfold dalloc. rewrite repeat_length. cbn. lia.
  - exists next. split; [exact D|]. split; [rewrite L; unfold dalloc; apply repeat_length|]. intros i Hi.
    apply (R i (i, V i)); [lia|]. destruct (Nat.ltb_spec i m); [now left|lia].
Qed.
Lemma callSum_det dv prev n m V : deviceOk dv -> (forall i, i < n -> dread prev i = Some (V i)) -> 1 <= m <= dvWarp dv * dvMaxGrid dv ->
  exists next, det (callSum dv arD prev n (dalloc (1 * m)) m) next /\ length next = 1 * m /\ forall t, t < m -> dread next t = Some (lsum arD V (class m t n)).
Proof.
  intros Hd HV Hm. destruct (grid_spec dv KSum m Hd ltac:(lia)) as (grid & Eg & Hg & Hn & _).
  destruct (launch_values dv KSum grid (sumThread arD prev n m) (fun t => lsum arD V (class m t n)) m Hg Hn) as (next & D & L & R).
  - intros id Hid. unfold sumThread. destruct (Nat.ltb_spec id m) as [Hlt|]; [|reflexivity].
    destruct (strided_sum arD monoidD (fun i s => do v <- dread prev i; Some (compensatedSum arD v s)) V n m id Hlt) as (c & E).
    + intros i st Hi. now rewrite HV by exact Hi.
    + rewrite E. reflexivity.
  - exists next. split; [|split; [exact L|exact R]]. intros r. unfold callSum. rewrite (rbind_det _ grid) by (apply det_lift; exact Eg). apply D.
Qed.

(* ---- the cascade ---- *)
Section Cascade.
  Context {T E : Type} (ar : arith T) (M : monoid ar) (valid : E -> Prop) (cell : E -> nat -> nat -> nat) (bound sz : nat)
          (call : devArray T -> nat -> devArray T -> nat -> runs (devArray T)).
  Definition holds (a : devArray T) (n : nat) (V : E -> nat -> T) : Prop := forall e i, valid e -> i < n -> dread a (cell e i n) = Some (V e i).
  Hypothesis Hb : 1 <= bound.
  Hypothesis Hcall : forall prev n m V, holds prev n V -> 1 <= m <= bound ->
    exists next, det (call prev n (dalloc (sz * m)) m) next /\ length next = sz * m /\ holds next m (fun e t => lsum ar (V e) (class m t n)).
  Lemma cascade_det : forall fuel n prev V, 1 <= n <= bound -> n < fuel -> holds prev n V ->
    exists out V', det (cascadedKernelSum fuel call 6 prev n sz) out /\ length out = sz * 1 /\ holds out 1 V' /\ forall e, valid e -> V' e 0 = lsum ar (V e) (seq 0 n).
  Proof.
    induction fuel as [|fuel IH]; intros n prev V Hn Hf HV; [lia|]. cbn [cascadedKernelSum].
    set (m := if n / 6 <=? 6 then 1 else n / 6).
    assert (Hm : 1 <= m <= bound /\ (m = 1 \/ (6 < m /\ m < n))).
    { unfold m. destruct (Nat.leb_spec (n / 6) 6); [lia|]. assert (n / 6 < n) by (apply Nat.div_lt; lia). lia. }
    destruct Hm as [Hm Hc]. destruct (Hcall prev n m V HV Hm) as (next & D & L & HN).
    assert (HS : forall e, lsum ar (fun t => lsum ar (V e) (class m t n)) (seq 0 m) = lsum ar (V e) (seq 0 n)).
    { intros e. apply (lsum_classes ar M). lia. }
    destruct (Nat.ltb_spec 6 m) as [H6|H6].
    - destruct (IH m next _ Hm ltac:(lia) HN) as (out & V' & D' & L' & H' & E'). exists out, V'. split; [|split; [exact L'|split; [exact H'|]]].
      + intros r. rewrite (rbind_det _ next) by exact D. apply D'.
      + intros e He. rewrite E' by exact He. apply HS.
    - destruct Hc as [H1|H1]; [|lia]. rewrite H1 in *. exists next, (fun e t => lsum ar (V e) (class 1 t n)). split; [|split; [exact L|split; [exact HN|]]].
      + intros r. rewrite (rbind_det _ next) by exact D. reflexivity.
      + intros e _. rewrite <- HS. cbn [seq]. cbn [lsum]. symmetry. apply (mo_zero _ M).
  Qed.
End Cascade.
Lemma cascadeD dv prev n V : deviceOk dv -> 1 <= n <= dvWarp dv * dvMaxGrid dv -> (forall i, i < n -> dread prev i = Some (V i)) ->
  exists out, det (cascadedKernelSum (S n) (callSum dv arD) 6 prev n 1) out /\ dread out 0 = Some (lsum arD V (seq 0 n)).
Proof.
  intros Hd Hn HV.
  destruct (cascade_det (E := unit) arD monoidD (fun _ => True) (fun _ i _ => i) (dvWarp dv * dvMaxGrid dv) 1 (callSum dv arD) ltac:(lia)) with (fuel := S n) (n := n) (prev := prev) (V := fun _ : unit => V) as (out & V' & D & _ & H & EV).
  - intros prev' n' m V' H' Hm. destruct (callSum_det dv prev' n' m (V' tt) Hd (fun i Hi => H' tt i I Hi) Hm) as (next & D & L & R).
    exists next. split; [exact D|]. split; [exact L|]. intros [] i _ Hi. now apply R.
  - exact Hn.
  - lia.
  - intros [] i _ Hi. now apply HV.
  - exists out. split; [exact D|]. rewrite <- (EV tt I). apply (H tt 0 I). lia.
Qed.

(* ---- the event kernels ---- *)
Section Kernels.
  Context (dv : device) (Hdv : deviceOk dv) (lk : lik) (P : idx -> C) (flat : R) (dP dD : devArray cplx).
  Let sh := lkShape lk.
  Let rank := shRank sh.
  Let n := lkEvts lk.
  Let W := (shWaves sh 0, shWaves sh 1).
  Let mx := wavesMax lk.
  Hypothesis HP : forall r e w, r < rank -> e < 2 -> w < shWaves sh e -> dread dP (rowMajor [rank; 2; mx] [r; e; w]) = Some (ofC (P (r, e, w))).
  Hypothesis HD : forall e w k, e < 2 -> w < shWaves sh e -> k < n -> dread dD (rowMajor [2; mx; n] [e; w; k]) = Some (ofC (lkDec lk e k w)).
  Lemma waves_rd e : e < 2 -> waves W e = Some (shWaves sh e).
  Proof. intros H. destruct e as [|[|e]]; [reflexivity|reflexivity|lia]. Qed.
  Lemma wave_mx e w : e < 2 -> w < shWaves sh e -> w < mx.
  Proof. intros He. unfold mx, wavesMax. fold sh. destruct e as [|[|e]]; lia. Qed.
  Lemma amp_gpu r e k : r < rank -> e < 2 -> k < n -> gpuAmpProdSum dP dD n rank W mx k r e = Some (ofC (ampProdSum lk P r e k)).
  Proof.
    intros Hr He Hk. unfold gpuAmpProdSum. rewrite waves_rd by exact He. cbn [bnd].
    match goal with |- context [foldO ?b (seq 0 ?m) _] => destruct (comp_fold arC monoidC b (fun w => ofC (P (r, e, w) * lkDec lk e k w)%C) (seq 0 m)) as (c & E & _) end.
    - intros w s Hw. apply in_seq in Hw. rewrite !off3. cbn [bnd]. rewrite HP, HD by lia. reflexivity.
    - rewrite E. cbn [bnd fst]. rewrite lsum_csum. reflexivity.
  Qed.
  Lemma norm_gpu z : cnorm (ofC z) = Some (normSq z). Proof. reflexivity. Qed.
  Let amps (k : nat) (p : nat * nat) : double := cnorm (ofC (ampProdSum lk P (fst p) (snd p) k)).
  Lemma amps_sum k : dadd (lsum arD (amps k) (pairs rank)) (dmul (Some flat) (Some flat)) = Some (evtLik lk P flat k).
  Proof. unfold amps. change (fun p => cnorm (ofC (ampProdSum lk P (fst p) (snd p) k))) with (fun p => Some ((fun r e => normSq (ampProdSum lk P r e k)) (fst p) (snd p))). rewrite lsum_pairs. reflexivity. Qed.

  (* logLikelihoodKernel *)
  Definition llTerm (k : nat) : double := do l <- oln (evtLik lk P flat k); Some (- l)%R.
  Lemma ll_thread id N : id < N -> logLikelihoodThread dP (dmul (Some flat) (Some flat)) dD n rank W mx id N = Some [(id, lsum arD llTerm (class N id n))].
  Proof.
    intros Hid. unfold logLikelihoodThread.
    match goal with |- context [strided _ ?b _ _ _ _] => destruct (strided_sum arD monoidD b llTerm n N id Hid) as (c & E) end.
    - intros k st Hk. rewrite foldO_nest.
      match goal with |- context [foldO ?b (pairs rank) _] => destruct (comp_fold arD monoidD b (amps k) (pairs rank)) as (c & E & Ev) end.
      + intros [r e] s Hp. apply pairs_In in Hp as [Hr He]. cbn [fst snd]. rewrite amp_gpu by assumption. reflexivity.
      + rewrite E. cbn [bnd]. rewrite Ev. cbn [arD plus]. rewrite amps_sum. reflexivity.
    - rewrite E. reflexivity.
  Qed.
  Lemma gpuLogLikelihood_det g l : dP = dupload l -> g = Gpu dD n W mx -> det (gpuLogLikelihood dv g l (Some flat) rank) (osum llTerm n).
  Proof.
    intros El Eg r. unfold gpuLogLikelihood. rewrite <- El, Eg; cbn [gDecay gEvents gWaves gMax].
    destruct (grid_spec dv KLogLikelihood 0 Hdv ltac:(lia)) as (grid & E & Hg & _ & Hb). specialize (Hb eq_refl).
    rewrite (rbind_det _ grid) by (apply det_lift; exact E). cbn zeta. set (N := fst grid * snd grid) in *.
    assert (HN : 1 <= N) by (unfold N; destruct Hg; nia).
    destruct (launch_values dv KLogLikelihood grid (logLikelihoodThread dP (dmul (Some flat) (Some flat)) dD n rank W mx) (fun t => lsum arD llTerm (class N t n)) N Hg (le_n _)) as (next & D & _ & R).
    { intros id Hid. fold N in Hid |- *. rewrite ll_thread by exact Hid. destruct (Nat.ltb_spec id N); [reflexivity|lia]. }
    rewrite Nat.mul_1_l in D. rewrite (rbind_det _ next) by exact D.
    destruct (cascadeD dv next N _ Hdv ltac:(lia) R) as (out & D2 & R2). rewrite (rbind_det _ out) by exact D2.
    rewrite R2. rewrite (class_sum arD monoidD) by lia. rewrite lsum_osum. reflexivity.
  Qed.

  (* logLikelihoodDerivFirstTermKernel *)
  Definition lefts (l : list (nat * cplx + nat * double)) : list (nat * cplx) := flat_map (fun w => match w with inl x => [x] | inr _ => [] end) l.
  Definition rights (l : list (nat * cplx + nat * double)) : list (nat * double) := flat_map (fun w => match w with inr x => [x] | inl _ => [] end) l.
  Lemma writeFirst_fold l : forall m, foldO writeFirst l m = (do a <- foldO dwrite (lefts l) (fst m); do b <- foldO dwrite (rights l) (snd m); Some (a, b)).
  Proof.
    induction l as [|[w|w] l IH]; intros [a b]; [reflexivity| |]; cbn [foldO writeFirst fst snd].
    - unfold lefts, rights. cbn [flat_map app foldO]. destruct (dwrite w a) as [a1|]; [cbn [bnd]|reflexivity]. apply IH.
    - unfold lefts, rights. cbn [flat_map app foldO]. destruct (dwrite w b) as [b1|]; [cbn [bnd]; apply IH|cbn [bnd]]. now destruct (foldO dwrite _ a).
  Qed.
  Lemma lefts_inl {A} (f : A -> nat * cplx) l : lefts (map (fun p => inl (f p)) l) = map f l.
  Proof. induction l as [|x l IH]; [reflexivity|]. cbn [map lefts flat_map app]. f_equal. exact IH. Qed.
  Lemma rights_inl {A} (f : A -> nat * cplx) l : rights (map (fun p => inl (f p)) l) = [].
  Proof. induction l as [|x l IH]; [reflexivity|]. exact IH. Qed.
  Lemma lefts_app l1 l2 : lefts (l1 ++ l2) = lefts l1 ++ lefts l2. Proof. apply flat_map_app. Qed.
  Lemma rights_app l1 l2 : rights (l1 ++ l2) = rights l1 ++ rights l2. Proof. apply flat_map_app. Qed.
  Definition termOff (k : nat) (p : nat * nat) : nat := rowMajor [rank; 2; n] [fst p; snd p; k].
  Definition firstWrites (k : nat) : list (nat * cplx + nat * double) :=
    map (fun p => inl (termOff k p, ofC (ampProdSum lk P (fst p) (snd p) k))) (pairs rank) ++ [inr (k, Some (evtLik lk P flat k))].
  Lemma foldO_log {A B S} (body : B -> S * list A -> option (S * list A)) (f : B -> S -> S) (g : B -> A) l :
    (forall x s ws, In x l -> body x (s, ws) = Some (f x s, ws ++ [g x])) ->
    forall s ws, foldO body l (s, ws) = do s' <- foldO (fun x s => Some (f x s)) l s; Some (s', ws ++ map g l).
  Proof.
    induction l as [|x l IH]; intros H s ws; [cbn; now rewrite app_nil_r|]. cbn [foldO]. rewrite H by now left. cbn [bnd].
    rewrite IH by (intros; apply H; now right). cbn [map]. now rewrite <- app_assoc.
  Qed.
  Lemma first_thread id N : firstTermThread dP (dmul (Some flat) (Some flat)) dD n rank W mx id N = Some (if id <? n then firstWrites id else []).
  Proof.
    unfold firstTermThread. destruct (Nat.ltb_spec id n) as [Hk|]; [|reflexivity]. rewrite foldO_nest.
    match goal with |- context [foldO ?b (pairs rank) _] =>
      rewrite (foldO_log b (fun p s => compensatedSum arD (amps id p) s) (fun p => inl (termOff id p, ofC (ampProdSum lk P (fst p) (snd p) id))) (pairs rank)) end.
    - destruct (comp_fold arD monoidD (fun p s => Some (compensatedSum arD (amps id p) s)) (amps id) (pairs rank)) as (c & E & Ev); [reflexivity|].
      rewrite E. cbn [bnd fst snd app]. rewrite Ev. cbn [arD plus]. rewrite amps_sum. reflexivity.
    - intros [r e] s ws Hp. apply pairs_In in Hp as [Hr He]. cbn [fst snd]. rewrite amp_gpu by assumption. cbn [bnd]. rewrite off3. reflexivity.
  Qed.
  Lemma box3 r e k : r < rank -> e < 2 -> k < n -> inBox [rank; 2; n] [r; e; k]. Proof. intros. unfold inBox. repeat (apply Forall2_cons; [assumption|]); apply Forall2_nil. Qed.
  Lemma first_det grid : gridOk dv KDerivFirstTerm grid -> n <= fst grid * snd grid ->
    exists terms, det (launch dv KDerivFirstTerm grid (firstTermThread dP (dmul (Some flat) (Some flat)) dD n rank W mx) writeFirst (dalloc (rank * 2 * n), dalloc n)) terms
      /\ (forall r e k, r < rank -> e < 2 -> k < n -> dread (fst terms) (rowMajor [rank; 2; n] [r; e; k]) = Some (ofC (ampProdSum lk P r e k)))
      /\ (forall k, k < n -> dread (snd terms) k = Some (Some (evtLik lk P flat k))).
  Proof.
    intros Hg Hn. set (N := fst grid * snd grid) in *. set (all := flat_map firstWrites (seq 0 n)).
    assert (EL : lefts all = flat_map (fun k => map (fun p => (termOff k p, ofC (ampProdSum lk P (fst p) (snd p) k))) (pairs rank)) (seq 0 n)).
    { unfold all, lefts. rewrite flat_map_flat_map'. apply flat_map_ext_In. intros k _. change (lefts (firstWrites k) = map (fun p => (termOff k p, ofC (ampProdSum lk P (fst p) (snd p) k))) (pairs rank)).
      unfold firstWrites. rewrite lefts_app, (lefts_inl (fun p => (termOff k p, ofC (ampProdSum lk P (fst p) (snd p) k)))). cbn. apply app_nil_r. }
    assert (ER : rights all = map (fun k => (k, Some (evtLik lk P flat k))) (seq 0 n)).
    { unfold all, rights. rewrite flat_map_flat_map'. rewrite <- flat_map_single. apply flat_map_ext_In. intros k _. change (rights (firstWrites k) = [(k, Some (evtLik lk P flat k))]).
      unfold firstWrites. rewrite rights_app, (rights_inl (fun p => (termOff k p, ofC (ampProdSum lk P (fst p) (snd p) k)))). reflexivity. }
    assert (NL : NoDup (map fst (lefts all))).
    { rewrite EL, map_flat_map'. apply NoDup_flat_map; [apply seq_NoDup| |].
      - intros k Hk. apply in_seq in Hk. rewrite map_map. cbn [fst].
        assert (HNp : NoDup (pairs rank)). { apply NoDup_flat_map; [apply seq_NoDup| |].
          - intros r _. repeat constructor; cbn; [intros [H|[]]; injection H; lia|tauto].
          - intros x y [a b] _ _ H1 H2. cbn in H1, H2. destruct H1 as [H1|[H1|[]]], H2 as [H2|[H2|[]]]; congruence. }
        assert (HI : forall p q, In p (pairs rank) -> In q (pairs rank) -> termOff k p = termOff k q -> p = q).
        { intros [a b] [c d] Hp Hq E. apply pairs_In in Hp as [? ?]. apply pairs_In in Hq as [? ?]. apply rowMajor_inj in E; [|apply box3; cbn; lia|apply box3; cbn; lia]. cbn in E. congruence. }
        revert HNp HI. generalize (pairs rank). intros l. induction l as [|p l IH]; intros HNp HI; [constructor|]. cbn. apply NoDup_cons_iff in HNp as [Hp HNp]. constructor.
        + intros H. apply in_map_iff in H as (q & Eq & Hq). apply Hp. rewrite (HI p q); auto; [now left|now right].
        + apply IH; auto. intros a b Ha Hb. apply HI; now right.
      - intros k k' z Hk Hk' Hz Hz'. apply in_seq in Hk, Hk'. rewrite map_map in Hz, Hz'. cbn [fst] in *.
        apply in_map_iff in Hz as ([a b] & Ez & Hp). apply in_map_iff in Hz' as ([c d] & Ez' & Hq). rewrite <- Ez' in Ez. apply pairs_In in Hp as [? ?]. apply pairs_In in Hq as [? ?].
        apply rowMajor_inj in Ez; [|apply box3; cbn; lia|apply box3; cbn; lia]. congruence. }
    assert (NR : NoDup (map fst (rights all))). { rewrite ER, map_map. cbn [fst]. rewrite map_id. apply seq_NoDup. }
    assert (RL : forall w, In w (lefts all) -> fst w < length (dalloc (T := cplx) (rank * 2 * n))).
    { intros w Hw. rewrite EL in Hw. apply in_flat_map in Hw as (k & Hk & Hw). apply in_seq in Hk. apply in_map_iff in Hw as ([r e] & <- & Hp). apply pairs_In in Hp as [? ?].
      unfold dalloc. rewrite repeat_length. cbn [fst]. unfold termOff. assert (B := rowMajor_bound [rank; 2; n] [r; e; k] (box3 r e k ltac:(lia) ltac:(lia) ltac:(lia))). cbn [product fold_right fst snd] in *. nia. }
    assert (RR : forall w, In w (rights all) -> fst w < length (dalloc (T := double) n)).
    { intros w Hw. rewrite ER in Hw. apply in_map_iff in Hw as (k & <- & Hk). apply in_seq in Hk. unfold dalloc. rewrite repeat_length. cbn [fst]. lia. }
    destruct (dwrites_spec _ _ NL RL) as (a & Ea & _ & Ra & _). destruct (dwrites_spec _ _ NR RR) as (b & Eb & _ & Rb & _).
    exists (a, b). cbn [fst snd]. split; [|split].
    - apply (launch_fold _ _ _ _ _ _ (fun id => if id <? n then firstWrites id else [])); [exact Hg|intros; apply first_thread|].
      intros order HPm. rewrite (flat_map_cut firstWrites) in HPm by exact Hn. fold all in HPm. rewrite writeFirst_fold. cbn [fst snd].
      rewrite (dwrites_perm (lefts all)) by (auto; apply Permutation_flat_map; exact HPm). rewrite Ea. cbn [bnd].
      rewrite (dwrites_perm (rights all)) by (auto; apply Permutation_flat_map; exact HPm). rewrite Eb. reflexivity.
    - intros r e k Hr He Hk. apply (Ra (termOff k (r, e), ofC (ampProdSum lk P r e k))). rewrite EL. apply in_flat_map. exists k. split; [apply in_seq; lia|].
      apply in_map_iff. exists (r, e). split; [reflexivity|]. now apply pairs_In.
    - intros k Hk. apply (Rb (k, Some (evtLik lk P flat k))). rewrite ER. apply in_map_iff. exists k. split; [reflexivity|apply in_seq; lia].
  Qed.

  (* the kernels that write one sum per production amplitude *)
  Definition cell4 (t : idx) (i N : nat) : nat := rowMajor [rank; 2; mx; N] [rk t; rf t; wv t; i].
  Lemma lw_In t : In t (loopWaves sh) -> rk t < rank /\ rf t < 2 /\ wv t < shWaves sh (rf t) /\ wv t < mx.
  Proof. destruct t as [[r e] w]. intros H. apply loopWaves_In in H as (H1 & H2 & H3). cbn. repeat split; auto. now apply (wave_mx e). Qed.
  Lemma box4 t i N : In t (loopWaves sh) -> i < N -> inBox [rank; 2; mx; N] [rk t; rf t; wv t; i].
  Proof. intros Ht Hi. destruct (lw_In t Ht) as (? & ? & ? & ?). unfold inBox. repeat (apply Forall2_cons; [assumption|]); apply Forall2_nil. Qed.
  Lemma foldO_snoc {A B} (f : B -> list A -> option (list A)) (g : B -> list A) l : (forall x ws, In x l -> f x ws = Some (ws ++ g x)) ->
    forall ws, foldO f l ws = Some (ws ++ flat_map g l).
  Proof.
    induction l as [|x l IH]; intros H ws; [cbn; now rewrite app_nil_r|]. cbn [foldO flat_map]. rewrite H by now left. cbn [bnd].
    rewrite IH by (intros; apply H; now right). now rewrite app_assoc.
  Qed.
  Lemma derivLoop_writes N id sum S : (forall t, In t (loopWaves sh) -> sum (rk t) (rf t) (wv t) = Some (S t)) ->
    derivLoop rank W mx N id sum = Some (map (fun t => (cell4 t id N, S t)) (loopWaves sh)).
  Proof.
    intros H. unfold derivLoop.
    rewrite (foldO_snoc _ (fun r => flat_map (fun e => map (fun w => (cell4 (r, e, w) id N, S (r, e, w))) (seq 0 (shWaves sh e))) [0; 1])).
    - cbn [app]. f_equal. unfold loopWaves. fold sh. rewrite map_flat_map'. apply flat_map_ext_In. intros r _. rewrite map_flat_map'. apply flat_map_ext_In. intros e _. now rewrite map_map.
    - intros r ws Hr. apply in_seq in Hr. apply foldO_snoc. intros e ws' He. assert (He2 : e < 2) by (cbn in He; lia). rewrite waves_rd by exact He2. cbn [bnd].
      rewrite (foldO_snoc _ (fun w => [(cell4 (r, e, w) id N, S (r, e, w))])).
      + now rewrite flat_map_single.
      + intros w ws2 Hw. apply in_seq in Hw. assert (Hin : In (r, e, w) (loopWaves sh)) by (apply loopWaves_In; fold rank; lia).
        rewrite (H (r, e, w) Hin : sum r e w = _). cbn [bnd]. rewrite off4. reflexivity.
  Qed.
  Lemma launch_derivs k grid thread (V : idx -> nat -> cplx) m : gridOk dv k grid -> m <= fst grid * snd grid ->
    (forall id, id < fst grid * snd grid -> thread id (fst grid * snd grid) = Some (if id <? m then map (fun t => (cell4 t id m, V t id)) (loopWaves sh) else [])) ->
    exists next, det (launch dv k grid thread dwrite (dalloc (rank * 2 * mx * m))) next /\ length next = rank * 2 * mx * m
      /\ holds (fun t => In t (loopWaves sh)) cell4 next m V.
  Proof.
    intros Hg Hm Hth. destruct (launch_det dv k grid thread (dalloc (rank * 2 * mx * m)) _ Hg Hth) as (next & D & L & R).
    - rewrite (flat_map_cut (fun id => map (fun t => (cell4 t id m, V t id)) (loopWaves sh))) by exact Hm. rewrite map_flat_map'. apply NoDup_flat_map; [apply seq_NoDup| |].
      + intros id Hid. apply in_seq in Hid. rewrite map_map. cbn [fst].
        assert (HI : forall p q, In p (loopWaves sh) -> In q (loopWaves sh) -> cell4 p id m = cell4 q id m -> p = q).
        { intros p q Hp Hq E. apply rowMajor_inj in E; [|apply box4; [exact Hp|lia]|apply box4; [exact Hq|lia]]. injection E as E1 E2 E3. destruct p as [[? ?] ?], q as [[? ?] ?]. cbn in *. congruence. }
        assert (HNp := loopWaves_NoDup sh). revert HNp HI. generalize (loopWaves sh). intros l. induction l as [|p l IH]; intros HNp HI; [constructor|]. cbn. apply NoDup_cons_iff in HNp as [Hp HNp]. constructor.
        * intros H. apply in_map_iff in H as (q & Eq & Hq). apply Hp. rewrite (HI p q); auto; [now left|now right].
        * apply IH; auto. intros a b Ha Hb. apply HI; now right.
      + intros i j z Hi Hj Hz Hz'. apply in_seq in Hi, Hj. rewrite map_map in Hz, Hz'. cbn [fst] in *. apply in_map_iff in Hz as (p & Ez & Hp). apply in_map_iff in Hz' as (q & Ez' & Hq). rewrite <- Ez' in Ez.
        apply rowMajor_inj in Ez; [|apply box4; [exact Hp|lia]|apply box4; [exact Hq|lia]]. now injection Ez.
    - intros id w _. destruct (Nat.ltb_spec id m); [|intros []]. intros Hw. apply in_map_iff in Hw as (t & <- & Ht). unfold dalloc. rewrite repeat_length. cbn [fst]. unfold cell4.
      assert (B := rowMajor_bound _ _ (box4 t id m Ht ltac:(lia))). cbn [product fold_right] in B. nia.
    - exists next. split; [exact D|]. split; [rewrite L; unfold dalloc; apply repeat_length|]. intros t i Ht Hi.
      apply (R i (cell4 t i m, V t i)); [lia|]. destruct (Nat.ltb_spec i m); [|lia]. apply in_map_iff. now exists t.
  Qed.
  Lemma callSumDeriv_det g prev N m V : gWaves g = W -> gMax g = mx -> holds (fun t => In t (loopWaves sh)) cell4 prev N V -> 1 <= m <= dvWarp dv * dvMaxGrid dv ->
    exists next, det (callSumDerivatives dv g rank prev N (dalloc (rank * 2 * mx * m)) m) next /\ length next = rank * 2 * mx * m
      /\ holds (fun t => In t (loopWaves sh)) cell4 next m (fun t i => lsum arC (V t) (class m i N)).
  Proof.
    intros EW EM HV Hm. destruct (grid_spec dv KSumDerivatives m Hdv ltac:(lia)) as (grid & Eg & Hg & Hn & _).
    destruct (launch_derivs KSumDerivatives grid (sumDerivThread rank (gWaves g) (gMax g) prev N m) (fun t i => lsum arC (V t) (class m i N)) m Hg Hn) as (next & D & L & R).
    - intros id Hid. unfold sumDerivThread. destruct (Nat.ltb_spec id m) as [Hlt|]; [|reflexivity]. rewrite EW, EM. apply derivLoop_writes. intros t Ht.
      match goal with |- context [strided _ ?b _ _ _ _] => destruct (strided_sum arC monoidC b (V t) N m id Hlt) as (c & E) end.
      + intros i st Hi. rewrite off4. cbn [bnd]. assert (HV1 := HV t i Ht Hi). unfold cell4 in HV1. rewrite HV1. reflexivity.
      + rewrite E. reflexivity.
    - exists next. split; [|split; [exact L|exact R]]. intros r. unfold callSumDerivatives. rewrite (rbind_det _ grid) by (apply det_lift; exact Eg). apply D.
  Qed.
  (* the derivative of the real-data term *)
  Definition derivTerm (t : idx) (k : nat) : cplx := cscale (dopp (ddiv (Some 2%R) (Some (evtLik lk P flat k)))) (ofC (evtDeriv lk P k t)).
  Definition flatTermD (k : nat) : double := dmul (dopp (ddiv (Some 2%R) (Some (evtLik lk P flat k)))) (Some flat).
  Lemma conj_mul a b : cmul (ofC a) (cconj (ofC b)) = ofC (a * Cconj b)%C. Proof. reflexivity. Qed.
  Lemma gpuDeriv_det g l : dP = dupload l -> g = Gpu dD n W mx -> n <= dvWarp dv * dvMaxGrid dv ->
    exists d, det (gpuLogLikelihoodDeriv dv g l (Some flat) rank) (d, osum flatTermD n)
      /\ forall t, In t (loopWaves sh) -> dread d (rowMajor [rank; 2; mx] [rk t; rf t; wv t]) = Some (lsum arC (derivTerm t) (seq 0 n)).
  Proof.
    intros El Eg Hb0.
    destruct (grid_spec dv KDerivFirstTerm n Hdv Hb0) as (grid1 & E1 & Hg1 & Hn1 & _).
    destruct (first_det grid1 Hg1 Hn1) as (terms & D1 & HT & HL).
    destruct (grid_spec dv KDeriv 0 Hdv ltac:(lia)) as (grid2 & E2 & Hg2 & _ & Hb2). specialize (Hb2 eq_refl).
    set (N2 := fst grid2 * snd grid2) in *. assert (HN2 : 1 <= N2) by (unfold N2; destruct Hg2; nia).
    destruct (launch_derivs KDeriv grid2 (derivThread dD n rank W mx (fst terms) (snd terms)) (fun t i => lsum arC (derivTerm t) (class N2 i n)) N2 Hg2 (le_n _)) as (sums & D2 & _ & H2).
    { intros id Hid. fold N2 in Hid |- *. unfold derivThread. destruct (Nat.ltb_spec id N2) as [Hlt|]; [|lia]. apply derivLoop_writes. intros t Ht.
      match goal with |- context [strided _ ?b _ _ _ _] => destruct (strided_sum arC monoidC b (derivTerm t) n N2 id Hlt) as (c & E) end.
      - intros k st Hk. destruct (lw_In t Ht) as (? & ? & ? & ?). rewrite !off3. cbn [bnd]. rewrite HT, HD, HL by assumption. cbn [bnd]. rewrite conj_mul. reflexivity.
      - rewrite E. reflexivity. }
    destruct (cascade_det arC monoidC (fun t => In t (loopWaves sh)) cell4 (dvWarp dv * dvMaxGrid dv) (rank * 2 * mx) (callSumDerivatives dv g rank) ltac:(lia)) with (fuel := S N2) (n := N2) (prev := sums) (V := fun t i => lsum arC (derivTerm t) (class N2 i n)) as (out & V' & D3 & L3 & H3 & EV).
    { intros prev N m V HV Hm. apply (callSumDeriv_det g prev N m V); auto; now rewrite Eg. }
    { lia. } { lia. } { exact H2. }
    destruct (grid_spec dv KDerivFlat 0 Hdv ltac:(lia)) as (grid4 & E4 & Hg4 & _ & Hb4). specialize (Hb4 eq_refl).
    set (N4 := fst grid4 * snd grid4) in *. assert (HN4 : 1 <= N4) by (unfold N4; destruct Hg4; nia).
    destruct (launch_values dv KDerivFlat grid4 (flatThread n (Some flat) (snd terms)) (fun t => lsum arD flatTermD (class N4 t n)) N4 Hg4 (le_n _)) as (fsums & D4 & _ & H4).
    { intros id Hid. fold N4 in Hid |- *. unfold flatThread. destruct (Nat.ltb_spec id N4) as [Hlt|]; [|lia].
      match goal with |- context [strided _ ?b _ _ _ _] => destruct (strided_sum arD monoidD b flatTermD n N4 id Hlt) as (c & E) end.
      - intros k st Hk. rewrite HL by exact Hk. reflexivity.
      - rewrite E. reflexivity. }
    rewrite Nat.mul_1_l in D4.
    destruct (cascadeD dv fsums N4 _ Hdv ltac:(lia) H4) as (fout & D5 & H5).
    exists out. split.
    - intros r. unfold gpuLogLikelihoodDeriv. rewrite <- El. replace (gDecay g) with dD by now rewrite Eg. replace (gEvents g) with n by now rewrite Eg. replace (gWaves g) with W by now rewrite Eg. replace (gMax g) with mx by now rewrite Eg.
      rewrite (rbind_det _ grid1) by (apply det_lift; exact E1). rewrite (rbind_det _ terms) by exact D1.
      rewrite (rbind_det _ grid2) by (apply det_lift; exact E2). cbn zeta. fold N2. rewrite (rbind_det _ sums) by exact D2. rewrite (rbind_det _ out) by exact D3.
      rewrite (rbind_det _ grid4) by (apply det_lift; exact E4). fold N4. rewrite (rbind_det _ fsums) by exact D4. rewrite (rbind_det _ fout) by exact D5.
      rewrite H5. rewrite (class_sum arD monoidD) by lia. rewrite lsum_osum. rewrite (rbind_det _ (osum flatTermD n)) by (now apply det_lift).
      rewrite firstn_all2 by (rewrite L3; lia). reflexivity.
    - intros t Ht. assert (H := H3 t 0 Ht ltac:(lia)). rewrite EV in H by exact Ht. rewrite (class_sum arC monoidC) in H by lia.
      rewrite <- H. reflexivity.
  Qed.
End Kernels.
