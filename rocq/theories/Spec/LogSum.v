(** The signature whose log-values are real numbers and whose one-variable
    integral is exact: the logarithm of a weighted sum of exponentials over fixed
    nodes (for instance exact quadrature).  Used to show that the hypotheses of
    theorems about exact integration are met. *)
From Coq Require Import List ZArith Reals Lra.
From Verif Require Import Model.Base Model.Mixed Spec.BeliefSpec Spec.IntegralSpec Spec.Toy.
Import ListNotations.
Local Open Scope R_scope.

Definition wsum (nodes : list (R * R)) (g : R -> R) : R :=
  fold_right (fun p acc => snd p * exp (g (fst p)) + acc) 0 nodes.
Definition logsum (nodes : list (R * R)) (g : R -> R) : R := ln (wsum nodes g).

Definition from_ok (o : outcome R) : R := match o with Ok a => a | _ => 0 end.

Definition logsum_sig (nodes : list (R * R)) : sig :=
  mkSig R 0 Rplus Rminus Ropp (fun _ => true)
    (list Z * (list R -> R)) fst snd (fun _ _ => []) (fun _ _ => [])
    nat (fun mean _ => length mean) (fun n _ _ => n) (fun n _ _ => n) (fun _ l => length l)
    (fun n => repeat 0 n) (fun _ _ => 1)
    (fun f _ _ k _ items => Ok (items, fun x => logsum nodes (fun u => from_ok (f (insert_at u k x))))).

Lemma logsum_laws nodes : group_laws (logsum_sig nodes).
Proof. split; simpl; intros; ring. Qed.

Lemma wsum_pos nodes g : nodes <> [] -> (forall p, In p nodes -> 0 < snd p) -> 0 < wsum nodes g.
Proof.
  intros Hn Hp. destruct nodes as [|p l]; [congruence|]. clear Hn. revert p Hp.
  assert (H0 : forall l, (forall p, In p l -> 0 < snd p) -> 0 <= wsum l g).
  { clear. induction l as [|q l IH]; intros H; simpl; [lra|].
    pose proof (exp_pos (g (fst q))). pose proof (H q (or_introl eq_refl)).
    assert (0 <= wsum l g) by (apply IH; intros; apply H; now right).
    assert (0 < snd q * exp (g (fst q))) by now apply Rmult_lt_0_compat. lra. }
  intros p Hp. simpl. pose proof (exp_pos (g (fst p))). pose proof (Hp p (or_introl eq_refl)).
  assert (0 <= wsum l g) by (apply H0; intros; apply Hp; now right).
  assert (0 < snd p * exp (g (fst p))) by now apply Rmult_lt_0_compat. lra.
Qed.
Lemma wsum_ext nodes f g : (forall u, f u = g u) -> wsum nodes f = wsum nodes g.
Proof. intros H. induction nodes; simpl; auto. rewrite H. now rewrite IHnodes. Qed.
Lemma wsum_shift nodes c f : wsum nodes (fun u => c + f u) = exp c * wsum nodes f.
Proof. induction nodes; simpl; [ring|]. rewrite IHnodes, exp_plus. ring. Qed.

Lemma put_insert nodes u k x : put (logsum_sig nodes) u k x = insert_at u k x.
Proof. revert x. induction k; intros [|y x]; simpl; auto. now rewrite IHk. Qed.

Lemma logsum_exact nodes : nodes <> [] -> (forall p, In p nodes -> 0 < snd p) ->
  exact_integral (logsum_sig nodes) (logsum nodes).
Proof.
  intros Hn Hp. split.
  - intros f g H. unfold logsum. simpl in *. now rewrite (wsum_ext nodes f g).
  - intros c f. simpl in *. unfold logsum. rewrite wsum_shift.
    rewrite ln_mult; [|apply exp_pos|now apply wsum_pos]. now rewrite ln_exp.
  - intros f d d2 k n items b E. injection E as <-. reflexivity.
  - intros f d d2 k n items b E x g Hl Hk H. injection E as <-. simpl.
    unfold logsum. f_equal. apply wsum_ext. intros u. rewrite <- (put_insert nodes). rewrite H. reflexivity.
Qed.

Lemma wsum_swap n1 n2 (f : R -> R -> R) :
  fold_right (fun p acc => snd p * wsum n2 (fun v => f (fst p) v) + acc) 0 n1 =
  fold_right (fun q acc => snd q * wsum n1 (fun u => f u (fst q)) + acc) 0 n2.
Proof.
  induction n1 as [|p n1 IH]; simpl.
  - induction n2 as [|q n2 IH]; simpl; [reflexivity|]. rewrite <- IH. simpl. ring.
  - rewrite IH. clear IH. induction n2 as [|q n2 IH]; simpl; [ring|].
    rewrite <- IH. ring.
Qed.

Lemma wsum_ln l W : (forall u, 0 < W u) ->
  wsum l (fun u => ln (W u)) = fold_right (fun p acc => snd p * W (fst p) + acc) 0 l.
Proof. intros H. induction l; simpl; auto. rewrite exp_ln by auto. now rewrite IHl. Qed.

Lemma logsum_fubini nodes : nodes <> [] -> (forall p, In p nodes -> 0 < snd p) ->
  fubini (logsum_sig nodes) (logsum nodes).
Proof.
  intros Hn Hp f. unfold logsum. simpl in *. f_equal.
  assert (E : forall h : R -> R -> R, wsum nodes (fun u => ln (wsum nodes (fun v => h u v))) =
     fold_right (fun p acc => snd p * wsum nodes (fun v => h (fst p) v) + acc) 0 nodes).
  { intros h. assert (P : forall u, 0 < wsum nodes (fun v => h u v)) by (intros; now apply wsum_pos).
    apply (wsum_ln nodes (fun u => wsum nodes (fun v => h u v)) P). }
  rewrite (E f), (E (fun v u => f u v)). apply wsum_swap.
Qed.
