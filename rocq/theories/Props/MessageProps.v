(** C10, C11: message passing on the cluster graph. *)
From Coq Require Import List ZArith Bool Lia Permutation Reals Lra.
From Verif Require Import Model.Base Model.Mixed Model.ClusterGraph
  Spec.BeliefSpec Spec.TreeSpec Spec.IntegralSpec Spec.MessageSpec Spec.Toy Spec.LogSum
  Proofs.MessageMain Proofs.ForwardLemmas Props.ClusterProps.
Import ListNotations.

(** C10.  The only thing assumed of the integration of a variable is that its
    result is a belief on the items it was asked for. *)
Theorem C10_messages_keep_the_product : forall (S : sig), group_laws S ->
  forall (fs : list (B S)) ops cg cg',
  (forall f, In f fs -> NoDup (bscope S f)) ->
  (forall f d d2 k n items b, b_integral S f d d2 k n items = Ok b -> bscope S b = items) ->
  build fs = Ok cg -> run_ops cg ops = Ok cg' ->
  forall w, potential cg' w = Ok (dsumS S (map (fval S w) fs)) /\
    exists bs, extractBeliefs cg' = Ok bs /\ sum_lvals w bs = Ok (dsumS S (map (fval S w) fs)).
Proof. exact C10_main. Qed.
Print Assumptions C10_messages_keep_the_product.

Example C10_case :
  on_ok (cg <- build cycle ;;
         run_ops cg [OpForward; OpPass 1 false false; @OpSetNormal toy (repeat 0%Z 10) (fun _ _ => 0%Z);
                     OpPass 0 false true; OpCalibrate; OpMargin [2%Z]]) (fun cg =>
    @potential toy cg (fun i => i) = Ok 56 /\ @sum_lvals toy (fun i => i) (cg_clusters cg) = Ok 135)%Z.
Proof. vm_compute. repeat split. Qed.

(** C11. *)
Theorem C11_forward_pass_exact : forall (S : sig) LI, group_laws S -> exact_integral S LI ->
  forall (fs : list (B S)) cg mean prec v,
  (forall f, In f fs -> NoDup (bscope S f)) -> build fs = Ok cg ->
  computeLogNormalizingConstant cg mean prec = Ok v ->
  (exists order, NoDup order /\ (forall x, In x order <-> exists f, In f fs /\ In x (bscope S f)) /\
    forall w, v = iterated S LI order (fun w => dsumS S (map (fval S w) fs)) w) /\
  (fubini S LI -> forall order, NoDup order ->
    (forall x, In x order <-> exists f, In f fs /\ In x (bscope S f)) ->
    forall w, v = iterated S LI order (fun w => dsumS S (map (fval S w) fs)) w).
Proof. exact C11_main. Qed.
Print Assumptions C11_forward_pass_exact.

(** The maximum over {0, 1} is exact in the max-plus sense, and the run on the
    four-cycle succeeds and gives the maximum of the sum of the factors. *)
Example toy_exact : exact_integral toy (fun g => Z.max (g 0%Z) (g 1%Z)).
Proof.
  split; simpl.
  - intros f g H. now rewrite !H.
  - intros c f. lia.
  - intros f d d2 k n items b E. injection E as <-. reflexivity.
  - intros f d d2 k n items b E x g Hl Hk H. injection E as <-. simpl.
    assert (P : forall u, insert_at u k x = put toy u k x).
    { intros u. clear. revert x. induction k; intros [|y x]; simpl; auto. now rewrite IHk. }
    now rewrite !P, !H.
Qed.
Example C11_case :
  on_ok (cg <- build cycle ;; computeLogNormalizingConstant cg (repeat 0%Z 10) (fun _ _ => 0%Z))
        (fun v => v = iterated toy (fun g => Z.max (g 0%Z) (g 1%Z)) [1; 2; 3; 4; 9]%Z
                        (fun w => dsumS toy (map (fval toy w) cycle)) (fun _ => 0%Z) /\ v = 25%Z).
Proof. vm_compute. split; reflexivity. Qed.

(** Sums of exponentials over any nodes with positive weights satisfy the
    hypotheses, order of integration included. *)
Example logsum_hypotheses : forall nodes, nodes <> [] -> (forall p, In p nodes -> 0 < snd p)%R ->
  group_laws (logsum_sig nodes) /\ exact_integral (logsum_sig nodes) (logsum nodes) /\
  fubini (logsum_sig nodes) (logsum nodes).
Proof.
  intros nodes H1 H2. split; [apply logsum_laws|]. split; [now apply logsum_exact|now apply logsum_fubini].
Qed.
