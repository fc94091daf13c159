(** C12: the normalising constant does not depend on earlier calls. *)
From Coq Require Import List Reals ZArith Bool.
From Verif Require Import Model.Base Model.Family Model.GLMM Model.Mixed Model.ClusterGraph Model.Stateful
  Spec.Numbers Spec.IntNumbers Proofs.GLMMMain Proofs.StatefulMain.
Import ListNotations.

(** The factors are created once and shared by all copies of all cluster graphs.
    After any calls - with other parameters, other graphs, calls that threw - a
    call gives what it gives first.  The numbers are any in which "equal" means
    equal. *)
Theorem C12_independent_of_history : forall F, (forall a b, neqb F a b = true -> a = b) ->
  forall datas h0, new_heap F datas = Ok h0 -> forall cs c,
  fst (run_call F datas c (run_session F datas cs h0)) = fst (run_call F datas c h0).
Proof. intros F Heq datas h0 Hn cs c. exact (proj1 (C12_main F Heq datas h0 Hn cs c)). Qed.
Print Assumptions C12_independent_of_history.

(** And that is what the program of Model/ClusterGraph.v gives, in which factors
    are functions, unless undefined behaviour is met (a factor called with
    vectors of the wrong sizes). *)
Theorem C12_factors_are_functions : forall F, (forall a b, neqb F a b = true -> a = b) ->
  forall datas h0, new_heap F datas = Ok h0 -> forall cs c v,
  fst (run_call F datas c (run_session F datas cs h0)) = v -> v <> UB ->
  v = computeLogNormalizingConstant (call_cg _ _ c) (call_mean _ _ c) (call_prec _ _ c).
Proof.
  intros F Heq datas h0 Hn cs c v E D.
  destruct (C12_main F Heq datas h0 Hn cs c) as [H1 [H2|H2]]; congruence.
Qed.
Print Assumptions C12_factors_are_functions.

(** Real numbers are such numbers. *)
Theorem C12_real_numbers : forall datas h0, new_heap Rnum datas = Ok h0 -> forall cs c,
  fst (run_call Rnum datas c (run_session Rnum datas cs h0)) = fst (run_call Rnum datas c h0).
Proof. exact (C12_independent_of_history Rnum Reqb_eq). Qed.
Print Assumptions C12_real_numbers.

(** Two overlapping factors: calls with different parameters give different
    values, and each gives its own again after the other. *)
Example C12_case :
  match new_heap Znum zdatas, zcall 2 3, zcall 5 4 with
  | Ok h0, Ok c1, Ok c2 =>
      fst (run_call _ _ c1 h0) = Ok (-98)%Z /\ fst (run_call _ _ c2 h0) = Ok (-178)%Z /\
      fst (run_call _ _ c1 (run_session _ _ [c1; c2; c2] h0)) = Ok (-98)%Z /\
      run_session _ _ [c1; c2] h0 <> h0
  | _, _, _ => False
  end.
Proof. vm_compute. repeat split; discriminate. Qed.
