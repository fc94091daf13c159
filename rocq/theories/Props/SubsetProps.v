(** C83: subset_dim selects in the direction it is asked for. *)
From Coq Require Import List ZArith Lia.
From Verif Require Import Model.Base Model.SubsetDim Spec.IndexSpec Spec.SubsetSpec Proofs.SubsetMain.
Import ListNotations.

(** The elements with the given indices in direction i, and all those in the other
    directions. *)
Theorem C83_selects : forall (A : Type) (na : A) (x : rarray A) i indices,
  (1 <= i <= length (ar_dims x))%nat -> Forall (fun d => (0 <= d)%Z) (ar_dims x) ->
  is_array (ar_dims x) (ar_data x) -> Forall (fun k => (1 <= k <= nth (i - 1) (ar_dims x) 0)%Z) indices ->
  exists y, subset_dim na x i indices = Ok y /\ ar_dims y = put (i - 1) (Z.of_nat (length indices)) (ar_dims x) /\
    is_array (ar_dims y) (ar_data y) /\
    forall t v, within (ar_dims y) t ->
      (element_is (ar_dims y) (ar_data y) t v <->
       element_is (ar_dims x) (ar_data x) (put (i - 1) (nth (Z.to_nat (nth (i - 1) t 0 - 1)) indices 0)%Z t) v).
Proof. exact (fun A na x i indices => selects na x i indices). Qed.
Print Assumptions C83_selects.

(** Vectors, and arrays with one dimension: NA beyond the end. *)
Theorem C83_vector : forall (A : Type) (na : A) (data : list A) indices, Forall (fun k => (1 <= k)%Z) indices ->
  subset_dim na (mkArray [] data) 1 indices =
    Ok (mkArray [] (map (fun k => match nth_error data (Z.to_nat k - 1) with Some v => v | None => na end) indices)) /\
  subset_dim na (mkArray [Z.of_nat (length data)] data) 1 indices =
    Ok (mkArray [Z.of_nat (length indices)] (map (fun k => match nth_error data (Z.to_nat k - 1) with Some v => v | None => na end) indices)).
Proof. exact (fun A na data indices H => conj (of_vector na data indices H) (one_dimension na data indices H)). Qed.
Print Assumptions C83_vector.

(** A direction that x does not have is an error, and with two or more dimensions also an
    index that is too large. *)
Theorem C83_no_dimension : forall (A : Type) (na : A) (x : rarray A) i indices, (length (ar_dims x) < i)%nat -> ~ (ar_dims x = [] /\ i = 1%nat) ->
  subset_dim na x i indices = Throw RuntimeError.
Proof. exact (fun A na x i indices => no_dimension na x i indices). Qed.
Print Assumptions C83_no_dimension.
Theorem C83_out_of_bounds : forall (A : Type) (na : A) (x : rarray A) i indices k, (1 <= i <= length (ar_dims x))%nat -> (2 <= length (ar_dims x))%nat ->
  In k indices -> (nth (i - 1) (ar_dims x) 0 < k)%Z -> subset_dim na x i indices = Throw RuntimeError.
Proof. exact (fun A na x i indices k => out_of_bounds na x i indices k). Qed.
Print Assumptions C83_out_of_bounds.

(** An array of 2 x 3 x 2 numbers: the third and the first in the second direction. *)
Example C83_case :
  let x := mkArray [2; 3; 2]%Z [111; 211; 121; 221; 131; 231; 112; 212; 122; 222; 132; 232]%Z in
  is_array (ar_dims x) (ar_data x) /\ Forall (fun d => (0 <= d)%Z) (ar_dims x) /\
  subset_dim 0%Z x 2 [3; 1]%Z = Ok (mkArray [2; 2; 2]%Z [131; 231; 111; 211; 132; 232; 112; 212]%Z) /\
  subset_dim 0%Z x 2 [4]%Z = Throw RuntimeError /\ subset_dim 0%Z x 4 [1]%Z = Throw RuntimeError.
Proof. vm_compute. repeat split; try (repeat constructor; discriminate). Qed.
(** Dimensions of size 1 are kept. *)
Example C83_size_one_case : subset_dim 0%Z (mkArray [2; 2]%Z [11; 21; 12; 22]%Z) 2 [2]%Z = Ok (mkArray [2; 1]%Z [12; 22]%Z).
Proof. vm_compute. reflexivity. Qed.
(** A matrix without columns. *)
Example C83_empty_case : subset_dim 0%Z (mkArray [3; 0]%Z []) 1 [2; 3]%Z = Ok (mkArray [2; 0]%Z []).
Proof. vm_compute. reflexivity. Qed.
