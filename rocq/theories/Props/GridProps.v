(** C13-C16. *)
From Coq Require Import List Arith ZArith Bool Reals Lia Lra.
From Verif Require Import Model.Base Model.Counting Model.Point Model.SparseGrid Spec.GridSpec Spec.NodalSpec
  Proofs.CountLemmas Proofs.GridMain Proofs.SparseMain.
Import ListNotations.

(** * C13 *)
Theorem C13_choose : forall n k, choose n k = if k <=? n then binom n k else 1.
Proof. exact choose_total. Qed.

Theorem C13_grid_size : forall d k,
  exists pts : list (list nat * list nat), NoDup pts /\
    (forall levels positions, In (levels, positions) pts <-> grid_point d k levels positions) /\
    length pts = findNumGridPoints d k.
Proof. exact C13_main. Qed.

Example C13_case : findNumGridPoints 2 3 = 49 /\ choose 6 2 = 15 /\ choose 2 6 = 1 /\
  grid_point 2 3 [1; 2] [1; 3] /\ ~ grid_point 2 3 [2; 2] [1; 3] /\ ~ grid_point 2 3 [1; 2] [2; 3].
Proof.
  split; [vm_compute; reflexivity|]. split; [vm_compute; reflexivity|]. split; [vm_compute; reflexivity|].
  split; [|split].
  - repeat split; simpl; try lia. repeat constructor; simpl; lia.
  - intros (_ & _ & H & _). simpl in H. lia.
  - intros (_ & _ & _ & H). inversion H; subst. simpl in *. lia.
Qed.

(** * C14 *)
Theorem C14_ranking : forall d, 0 < d ->
  (forall n, exists p, advances n (point_new d) = Ok p /\
     p_index p = Z.of_nat n /\ computeIndex p = Ok (Z.of_nat n) /\
     p_levelSum p = list_sum (p_levels p) /\
     (forall k, grid_point d k (p_levels p) (p_positions p) <-> n < findNumGridPoints d k)) /\
  (forall k levels positions, grid_point d k levels positions ->
     exists n p, n < findNumGridPoints d k /\ advances n (point_new d) = Ok p /\
       p_levels p = levels /\ p_positions p = positions /\
       (forall n' p', advances n' (point_new d) = Ok p' -> p_levels p' = levels -> p_positions p' = positions ->
          n' = n)).
Proof. exact C14_main. Qed.

Example C14_case : advances 10 (point_new 2) = Ok (mkPoint 10 [1; 1] [1; 0] 2).
Proof. vm_compute. reflexivity. Qed.

(** * C15 *)
Theorem C15_parents : forall d k i t p, i < findNumGridPoints d k -> t < d ->
  advances i (point_new d) = Ok p ->
  (forall l, In l (p_levels p) -> l <= k) /\
  exists ps, parents p t = Ok ps /\
    NoDup (map (fun q => (p_levels q, p_positions q)) ps) /\
    (forall levels positions, In (levels, positions) (map (fun q => (p_levels q, p_positions q)) ps) <->
       grid_point d k levels positions /\
       (forall u, u <> t -> nth_error levels u = nth_error (p_levels p) u /\
                            nth_error positions u = nth_error (p_positions p) u) /\
       nth t levels 0 < nth t (p_levels p) 0) /\
    (forall q, In q ps -> (0 <= p_index q < Z.of_nat i)%Z /\
       advances (Z.to_nat (p_index q)) (point_new d) = Ok q).
Proof. exact C15_parents_main. Qed.

(** No access out of range, whatever the coefficients are: the basis is only known on
    levels up to k and positions below 2^level. *)
Theorem C15_hierarchize_safe : forall b k D x phi d g, total_basis b k D x phi ->
  sg_d g = d -> size g = findNumGridPoints d k ->
  exists g', hierarchize b g = Ok g' /\ size g' = size g.
Proof. exact C15_safe_main. Qed.

Example C15_case : advances 14 (point_new 2) = Ok (mkPoint 14 [0; 2] [0; 1] 2) /\
  parents (mkPoint 14 [0; 2] [0; 1] 2) 1 =
    Ok [mkPoint 0 [0; 0] [0; 0] 0; mkPoint 3 [0; 1] [0; 0] 1; mkPoint 4 [0; 1] [0; 1] 1].
Proof. split; vm_compute; reflexivity. Qed.

(** * C16 *)
Theorem C16_interpolation : forall b k D x phi d f, total_basis b k D x phi -> nodal k x phi ->
  exists g, grid_of f d b = Ok g /\
  (forall ls ps, grid_point d k ls ps -> interpolate g (place x ls ps) b = Ok (f (place x ls ps))) /\
  (forall y, length y = d -> List.Forall D y ->
     exists v ls ps, interpolate g y b = Ok v /\ grid_point d k ls ps /\ (v <= f (place x ls ps))%R).
Proof. exact C16_main. Qed.

(** The hypotheses hold for hat functions of any number of levels. *)
Example C16_case : forall k, total_basis (hat_basis k) k (fun _ => True) hat_x hat_phi /\ nodal k hat_x hat_phi.
Proof. exact hat_nodal. Qed.

Print Assumptions C13_choose.
Print Assumptions C13_grid_size.
Print Assumptions C14_ranking.
Print Assumptions C15_parents.
Print Assumptions C15_hierarchize_safe.
Print Assumptions C16_interpolation.
