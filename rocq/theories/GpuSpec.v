(* What C71 assumes about the hardware and the size of the data. *)
From Coq Require Import List ZArith.
From Verif Require Import LikParModel LikModel GpuModel.
Open Scope nat_scope.

(* a usable CUDA device: a warp fits into a block of every kernel, there is at least one multiprocessor, and a grid of
   single-warp blocks can hold one block per multiprocessor and as many threads as the maximum occupancy grid *)
Definition usable (dv : device) : Prop :=
  1 <= dvWarp dv /\ 1 <= dvMultiProc dv <= dvMaxGrid dv /\
  forall k, dvWarp dv <= dvMaxThreads dv k /\ dvMultiProc dv * dvMaxThreads dv k <= dvWarp dv * dvMaxGrid dv.

(* the decay amplitudes of 16 bytes each (2 reflectivities, larger number of waves, events) occupy less than 4 GiB *)
Definition fitsUnsigned (lk : lik) : Prop :=
  (16 * Z.of_nat (2 * (Nat.max (shWaves (lkShape lk) 0) (shWaves (lkShape lk) 1) * lkEvts lk)) < 2 ^ 32)%Z.

(* every execution ends with the outcome r0 *)
Definition always {A} (m : runs A) (r0 : option A) : Prop := forall r, m r <-> r = r0.
