(* C93: what the integrals of a fit result have to be. *)
From Coq Require Import String Ascii List ZArith Bool Reals.
From Coquelicot Require Import Complex.
From Verif Require Import PathModel StrModel CGBoxModel ParticleModel AmpIntModel LikIntProps FitResultModel.
Import ListNotations.
Open Scope list_scope. Open Scope nat_scope.

(* an integral that has the waves ws *)
Definition covers (m : aim) (ws : list str) : Prop :=
  nmbWaves m = length (waveNames m) /\ forall a b, In a ws -> In b ws -> exists v, integralOf m 1 a b v.
(* events, and positive diagonal elements *)
Definition usable (m : aim) (ws : list str) : Prop :=
  (0 < nmbEvents m)%Z /\ covers m ws /\ forall a v, In a ws -> integralOf m 1 a a v -> (0 < Re v)%R.

(* a fit result as it is stored: filled once *)
Definition stored (r : fitResult) : Prop := exists a, r = fill frNew a.
Definition without (r : fitResult) : Prop := rows (frNorm r) = 0 /\ cols (frNorm r) = 0 /\ rows (frAcc r) = 0 /\ cols (frAcc r) = 0 /\ frPhaseSpace r = [].
(* the waves of the fit result are ws and a last one *)
Definition wavesAre (r : fitResult) (ws : list str) (last : str) : Prop :=
  frWaveNames r = ws ++ [last] /\ ~ In (lit "flat") ws /\ forall a, In a ws -> getReflectivity a <> None.

(* all but the integrals is the same *)
Definition sameFit (r s : fitResult) : Prop :=
  frNmbEvents s = frNmbEvents r /\ frNormNmbEvents s = frNormNmbEvents r /\ frBounds s = frBounds r /\ frLogL s = frLogL r /\ frRank s = frRank r
  /\ frAmps s = frAmps r /\ frAmpNames s = frAmpNames r /\ frWaveNames s = frWaveNames r /\ frCovIdx s = frCovIdx r /\ frConverged s = frConverged r.
Definition sameCov (r s : fitResult) : Prop := frCovValid s = frCovValid r /\ frCov s = frCov r /\ frHasHessian s = frHasHessian r.

(* the integrals of the fit result s are those of N and A (A is divided by the events of N) with normalised waves, and those of
   the last wave are 1, the acceptance acc and phase space 1 *)
Definition integralsAre (N A : aim) (ws : list str) (acc : R) (s : fitResult) : Prop :=
  let n := length ws in
  rows (frNorm s) = S n /\ cols (frNorm s) = S n /\ rows (frAcc s) = S n /\ cols (frAcc s) = S n /\ length (frPhaseSpace s) = S n
  /\ (forall i j a b va vb, nth_error ws i = Some a -> nth_error ws j = Some b ->
       integralOf N (nmbEvents N) a a va -> integralOf N (nmbEvents N) b b vb ->
       nth_error (frPhaseSpace s) i = Some (sqrt (Re va))
       /\ (getReflectivity a <> getReflectivity b -> el (frNorm s) i j = RtoC 0 /\ el (frAcc s) i j = RtoC 0)
       /\ (getReflectivity a = getReflectivity b ->
            (forall v, integralOf N (nmbEvents N) a b v -> el (frNorm s) i j = if i =? j then RtoC 1 else (v / RtoC (sqrt (Re va) * sqrt (Re vb)))%C)
            /\ (forall v, integralOf A (nmbEvents N) a b v -> el (frAcc s) i j = (v / RtoC (sqrt (Re va) * sqrt (Re vb)))%C)))
  /\ (forall i, i < n -> el (frNorm s) i n = RtoC 0 /\ el (frNorm s) n i = RtoC 0 /\ el (frAcc s) i n = RtoC 0 /\ el (frAcc s) n i = RtoC 0)
  /\ el (frNorm s) n n = RtoC 1 /\ el (frAcc s) n n = RtoC acc /\ nth_error (frPhaseSpace s) n = Some 1%R
  /\ (forall k name, nth_error (frAmpNames s) k = Some name -> exists i, frIdxMap s k = Some i /\ nth_error (frWaveNames s) i = Some (waveNameForProdAmp name)).
