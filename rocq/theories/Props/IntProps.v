(** C17, C18: 32-bit arithmetic. *)
From Coq Require Import List Arith ZArith Bool Lia.
From Verif Require Import Model.Base Model.Counting Model.Point Model.SparseGrid Model.Graph Model.IntCounting
  Spec.GridSpec Proofs.IntMain.
Import ListNotations.

(** C17: with every int operation checked, the results are those of unbounded
    arithmetic.  The points are those at which hierarchize, interpolate and
    initializeStorage work. *)
Theorem C17_no_overflow : forall width nSL d,
  admitted_by_guard width nSL -> d < width -> (Z.of_nat width <= INT_MAX)%Z ->
  findNumGridPoints_int d nSL = Ok (Z.of_nat (findNumGridPoints d nSL)) /\
  forall i p, i < findNumGridPoints d nSL -> 0 < d -> advances i (point_new d) = Ok p ->
    computeIndex_int p = computeIndex p /\ advance_int p = advance p /\
    forall t, t < d -> parents_int p t = parents p t.
Proof. exact C17_main. Qed.
Print Assumptions C17_no_overflow.

Example C17_case : admitted_by_guard 26 2 /\ admitted_by_guard 8 3 /\ admitted_by_guard 2 9 /\
  findNumGridPoints_int 25 2 = Ok 1351%Z /\
  on_point (advances 700 (point_new 25)) (fun p => computeIndex_int p = Ok 700%Z).
Proof.
  split; [vm_compute; discriminate|]. split; [vm_compute; discriminate|]. split; [vm_compute; discriminate|].
  split; vm_compute; reflexivity.
Qed.

(** Without the guard the arithmetic does overflow. *)
Example C17_guard_needed : ~ admitted_by_guard 41 8 /\ findNumGridPoints_int 40 8 = UB.
Proof. split; [vm_compute; intros H; apply H; reflexivity|vm_compute; reflexivity]. Qed.

(** C18 *)
Theorem C18_isComplete_overflow : forall scopes g, (forall s, In s scopes -> NoDup s) ->
  makeDependenceGraph scopes = Ok g ->
  (Z.of_nat (length (getItems g)) <= INT_MAX)%Z ->
  isComplete_int g = if (Z.of_nat (length (getItems g)) <=? 46341)%Z then Ok (isComplete g) else UB.
Proof. exact C18_main. Qed.
Print Assumptions C18_isComplete_overflow.

(** There are such models of every size. *)
Theorem C18_every_size : forall n, exists scopes g, (forall s, In s scopes -> NoDup s) /\
  makeDependenceGraph scopes = Ok g /\ length (getItems g) = n.
Proof. exact C18_reach. Qed.
Print Assumptions C18_every_size.

Example C18_case : bind (makeDependenceGraph [[1; 2]; [2; 3]; [3; 1]]%Z) isComplete_int = Ok true.
Proof. vm_compute. reflexivity. Qed.
