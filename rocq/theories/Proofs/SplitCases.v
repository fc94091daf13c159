From Coq Require Import List ZArith Bool Arith Lia Permutation Reals Lra.
From Verif Require Import Model.Base Model.Family Model.GLMM Model.SplitFrame Spec.Numbers Spec.FamilySpec Spec.GLMMSpec Spec.SplitSpec
  Proofs.SplitLemmas Proofs.SplitMain.
Import ListNotations.
Local Open Scope R_scope.

(** A slope for each of two groups, three observations, the first with covariate
    zero, for which nothing is stored. *)
Definition slopes (first : list (nat * R)) : frame Rnum :=
  mkFrame Rnum [[1]; [1]; [1]] 1 (mkCsc 2 [first; [(0%nat, 1)]; [(1%nat, 1)]])
    (mkCsc 2 [[(0%nat, 1)]; [(1%nat, 1)]]) [1%Z; 1%Z] (Numeric Rnum [1; 1; 1]) None.

Lemma stored_cols {A} (m : csc A) r c : stored m r c -> (c < length (cs_cols m))%nat.
Proof. intros (x & H). destruct (Nat.lt_ge_cases c (length (cs_cols m))); [easy|]. rewrite nth_overflow in H by easy. easy. Qed.

Lemma slopes_regular first : (forall r x, In (r, x) first -> (r < 2)%nat) -> regular (slopes first).
Proof.
  intros H. constructor; cbn [slopes fr_X fr_numFixed fr_Zt fr_Lambdat fr_Lind fr_response fr_weights response_vector cs_cols cs_rows]; try reflexivity.
  - intros row [<-|[<-|[<-|[]]]]; reflexivity.
  - intros r c S. pose proof (stored_cols _ _ _ S) as L. cbn in L. destruct S as (x & S).
    destruct c as [|[|[|c]]]; cbn in S; [eauto| | |lia].
    + destruct S as [S|[]]. injection S as <- _. lia.
    + destruct S as [S|[]]. injection S as <- _. lia.
  - intros r c S. pose proof (stored_cols _ _ _ S) as L. cbn in L. destruct S as (x & S).
    destruct c as [|[|c]]; cbn in S; [| |lia]; destruct S as [S|[]]; injection S as <- _; lia.
  - intros k Hk. exists 1. destruct k as [|[|k]]; cbn; [now left|now left|lia].
  - discriminate.
Qed.

Lemma clip_logistic : clip (logistic 0) = 1 / 2 /\ 1 / 2 < clip (logistic 1) < 1.
Proof.
  assert (E0 : logistic 0 = 1 / 2) by (unfold logistic; rewrite Ropp_0, exp_0; field).
  assert (X : 0 < exp (- (1)) < 1). { split; [apply exp_pos|]. rewrite <- exp_0 at 2. apply exp_increasing. lra. }
  assert (E1 : 1 / 2 < logistic 1 < 1).
  { unfold logistic. split.
    - apply (Rmult_lt_reg_r (1 + exp (- (1)))); [lra|]. rewrite Rinv_l by lra. lra.
    - apply (Rmult_lt_reg_r (1 + exp (- (1)))); [lra|]. rewrite Rinv_l by lra. lra. }
  assert (T : 0 < tiny < 1 / 4) by (unfold tiny; lra).
  unfold clip. rewrite E0. split.
  - rewrite Rmin_left by lra. apply Rmax_right. lra.
  - unfold Rmin. destruct (Rle_dec (logistic 1) (1 - tiny)); rewrite Rmax_right by lra; lra.
Qed.

Definition shifted := slopes [].
Lemma shifted_ext : let act := find_active (fr_Lambdat _ shifted) (fr_Zt _ shifted) in
  add_obs (unique identical act) act (seq 1 3) = Ok [([1%nat], [1%nat; 3%nat]); ([2%nat], [2%nat])].
Proof. reflexivity. Qed.

Ltac calc := unfold eta, LZ, Lam, sumR, at2, places, entry;
  cbn -[IZR clip logistic ln]; repeat (progress (rewrite ?Rmult_0_l, ?Rmult_0_r, ?Rmult_1_l, ?Rmult_1_r, ?Rplus_0_l, ?Rplus_0_r)).

Lemma C38_shift_main : exists fr, regular fr /\ (1 <= length (cs_cols (fr_Zt _ fr)))%nat /\
  (forall o, (1 <= o < length (cs_cols (fr_Zt _ fr)))%nat -> exists r, depends (fr_Lambdat _ fr) (fr_Zt _ fr) o r) /\
  exists ds, find_factorization_terms Rnum fr =
    Ok (map (GLMMTerm Rnum) ds ++ map (fun i => NormalTerm Rnum [Z.of_nat i] [0] [[1]]) (seq 0 (cs_rows (fr_Zt _ fr)))) /\
  (forall u v, map (fun d => factor_loglik logistic d [0] [1] (restrict u (gd_items _ d))) ds = map (fun d => factor_loglik logistic d [0] [1] (restrict v (gd_items _ d))) ds) /\
  factor_loglik logistic (whole fr) [0] [1] [1; 1] <> factor_loglik logistic (whole fr) [0] [1] [0; 0].
Proof.
  exists shifted. assert (Reg : regular shifted) by (apply slopes_regular; intros r x []). split; [exact Reg|]. split; [cbn; lia|]. split.
  { intros o Ho. cbn in Ho. destruct o as [|[|[|o]]]; try lia.
    - exists 0%nat, 0%nat. split; exists 1; now left.
    - exists 1%nat, 1%nat. split; exists 1; now left. }
  eexists [_; _]. split; [|split].
  - rewrite (terms_eq shifted Reg) by (cbn; lia).
    change (length (cs_cols (fr_Zt _ shifted))) with 3%nat. rewrite shifted_ext. cbn [bind map fst snd]. reflexivity.
  - intros u v.
    assert (G : forall x, factor_loglik logistic (local shifted [1%nat] [1%nat; 3%nat]) [0] [1] (restrict x [0%Z]) = factor_loglik logistic (local shifted [1%nat] [1%nat; 3%nat]) [0] [1] [0]).
    { intros x. unfold factor_loglik. f_equal. apply map_ext_in. intros k Hk. do 2 f_equal. destruct Hk as [<-|[<-|[]]]; calc; try reflexivity; ring. }
    assert (H : forall x, factor_loglik logistic (local shifted [2%nat] [2%nat]) [0] [1] (restrict x [1%Z]) = factor_loglik logistic (local shifted [2%nat] [2%nat]) [0] [1] [0]).
    { intros x. unfold factor_loglik. f_equal. apply map_ext_in. intros k Hk. do 2 f_equal. destruct Hk as [<-|[]]; calc; try reflexivity; ring. }
    cbn [map]. f_equal; [|f_equal].
    + etransitivity; [apply G|symmetry; apply G].
    + etransitivity; [apply H|symmetry; apply H].
  - rewrite !(whole_loglik shifted Reg). destruct clip_logistic as [E0 E1].
    assert (K : forall a, lsum (seq 1 (length (cs_cols (fr_Zt _ shifted)))) (fun o => contribution shifted logistic [0] [1] [a; a] (o - 1)) = ln (1 / 2) + 2 * ln (clip (logistic a))).
    { intros a. unfold lsum. cbn [slopes shifted fr_Zt cs_cols length seq map fold_right Nat.sub].
      assert (Q : forall k b, eta (whole shifted) [0] [1] [a; a] k = b -> (k < 3)%nat -> contribution shifted logistic [0] [1] [a; a] k = ln (clip (logistic b))).
      { intros k b E Hk. unfold contribution. rewrite E. destruct k as [|[|[|k]]]; [| | |lia]; cbn -[IZR clip logistic ln]; ring. }
      rewrite (Q 0%nat 0), (Q 1%nat a), (Q 2%nat a); try lia.
      - rewrite E0. ring.
      - calc. ring.
      - calc. ring.
      - calc. ring. }
    rewrite !K, E0. pose proof (ln_increasing (1 / 2) (clip (logistic 1)) ltac:(lra) ltac:(lra)). lra.
Qed.

(** With the covariate of the first observation stored, nothing is lost. *)
Lemma slopes_case : regular (slopes [(0%nat, 2)]) /\ no_empty (slopes [(0%nat, 2)]) /\
  (exists d1 d2, find_factorization_terms Rnum (slopes [(0%nat, 2)]) =
     Ok [GLMMTerm Rnum d1; GLMMTerm Rnum d2; NormalTerm Rnum [0%Z] [0] [[1]]; NormalTerm Rnum [1%Z] [0] [[1]]] /\
     gd_items _ d1 = [0%Z] /\ gd_numObs _ d1 = 2%nat /\ gd_items _ d2 = [1%Z] /\ gd_numObs _ d2 = 1%nat).
Proof.
  assert (Reg : regular (slopes [(0%nat, 2)])). { apply slopes_regular. intros r x [H|[]]. injection H as <- _. lia. }
  split; [exact Reg|]. split.
  - intros o Ho. cbn in Ho. destruct o as [|[|[|o]]]; try lia.
    + exists 0%nat, 0%nat. split; [exists 2|exists 1]; now left.
    + exists 0%nat, 0%nat. split; exists 1; now left.
    + exists 1%nat, 1%nat. split; exists 1; now left.
  - do 2 eexists. split.
    + rewrite (terms_eq _ Reg) by (cbn; lia). change (length (cs_cols (fr_Zt _ (slopes [(0%nat, 2)])))) with 3%nat.
      replace (add_obs _ _ _) with (Ok [([1%nat], [1%nat; 2%nat]); ([2%nat], [3%nat])]) by reflexivity.
      cbn [bind map fst snd]. reflexivity.
    + repeat split.
Qed.
