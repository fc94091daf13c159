(** Frames put together: the bounds, and cases. *)
From Coq Require Import List Reals ZArith Bool Arith Sorted Lia Lra.
From Coquelicot Require Import Coquelicot.
From Verif Require Import Model.Base Model.Family Model.GLMM Model.SplitFrame Model.Frames Spec.Numbers Spec.GLMMSpec Spec.SplitSpec Spec.FramesSpec
  Proofs.SplitMain Proofs.ConcatMain Proofs.AttachMain Proofs.SignMain.
Import ListNotations.
Local Open Scope R_scope.

Theorem C42_bounds_main n m1 m2 r1 r2 m : proper n m1 -> proper n m2 -> mo_re _ m1 = Some r1 -> mo_re _ m2 = Some r2 ->
  bounds_fit r1 -> rt_theta _ r2 <> [] -> concatenate_frames Rnum m1 m2 = Ok m ->
  exists r, mo_re _ m = Some r /\ rt_theta _ r = rt_theta _ r1 ++ rt_theta _ r2 /\ rt_lower _ r = rt_lower _ r1 /\
    (length (rt_lower _ r) < length (rt_theta _ r))%nat.
Proof.
  intros P1 P2 E1 E2 [B _] NE H. unfold concatenate_frames in H. apply bindOk in H. destruct H as [X [_ H]]. apply bindOk in H. destruct H as [re [HR H]]. injection H as <-.
  rewrite E1, E2 in HR. apply bindOk in HR. destruct HR as [Zt [_ HR]]. injection HR as <-. eexists. split; [reflexivity|]. cbn [rt_theta rt_lower]. rewrite app_nil_r.
  split; [reflexivity|]. split; [reflexivity|]. assert (L : length (rt_theta Rnum r1 ++ rt_theta Rnum r2) = (length (rt_theta Rnum r1) + length (rt_theta Rnum r2))%nat) by apply app_length.
  rewrite B. eapply Nat.lt_le_trans; [|exact (Nat.eq_le_incl _ _ (eq_sym L))]. destruct (rt_theta _ r2); [easy|]. cbn [length]. lia.
Qed.

Definition case_r1 : retrms Rnum := mkRe Rnum (mkCsc 1 [[(0%nat, 1)]; [(0%nat, 1)]]) [1] [1%Z] [Zero] (mkCsc 1 [[(0%nat, 1)]]).
Definition case_r2 : retrms Rnum := mkRe Rnum (mkCsc 2 [[(0%nat, 1); (1%nat, 1)]; [(0%nat, 1); (1%nat, 2)]]) [1; 0; 1] [1%Z; 2%Z; 3%Z]
  [Zero; MinusInf; Zero] (mkCsc 2 [[(0%nat, 1)]; [(0%nat, 0); (1%nat, 1)]]).
Definition case_m1 : modfr Rnum := mkModfr Rnum [[1]; [1]] 1 (Some case_r1) (Numeric Rnum [0; 1]) None.
Definition case_m2 : modfr Rnum := mkModfr Rnum [[]; []] 0 (Some case_r2) (Numeric Rnum []) None.

Lemma ss1 (x : nat) : StronglySorted lt [x]. Proof. repeat constructor. Qed.
Lemma ss2 (x y : nat) : (x < y)%nat -> StronglySorted lt [x; y]. Proof. repeat constructor; assumption. Qed.
Ltac in_cases := repeat match goal with
  | H : In _ (_ :: _) |- _ => destruct H as [H|H]
  | H : _ \/ _ |- _ => destruct H as [H|H]
  | H : In _ [] |- _ => destruct H
  | H : False |- _ => destruct H
  end.
Lemma case_p1 : proper 2 case_m1.
Proof.
  constructor; [reflexivity|cbn; intros; in_cases; subst; reflexivity|]. intros r [= <-]. constructor; try reflexivity; cbn; intros; in_cases; subst; cbn in *; in_cases; subst; cbn; try lia.
  all: apply ss1.
Qed.
Lemma case_p2 : proper 2 case_m2.
Proof.
  constructor; [reflexivity|cbn; intros; in_cases; subst; reflexivity|]. intros r [= <-]. constructor; try reflexivity; cbn; intros; in_cases; subst; cbn in *; in_cases; subst; cbn; try lia.
  all: first [apply ss1|apply ss2; lia].
Qed.
Lemma case_b1 : bounds_fit case_r1.
Proof. split; [reflexivity|]. intros i j l H. cbn in H. in_cases. injection H as <- <- <-. cbn. split; reflexivity. Qed.
Lemma case_b2 : bounds_fit case_r2.
Proof.
  split; [reflexivity|]. intros i j l H. cbn in H. in_cases; injection H as <- <- <-; cbn; split; intros; try reflexivity; discriminate.
Qed.

(** All the bounds that remain are 0, although a parameter is not one of the diagonal. *)
Theorem C45_attached_main : exists n m1 m2 r1 r2 m r theta beta theta',
  proper n m1 /\ proper n m2 /\ mo_re _ m1 = Some r1 /\ mo_re _ m2 = Some r2 /\ bounds_fit r1 /\ bounds_fit r2 /\
  concatenate_frames Rnum m1 m2 = Ok m /\ mo_re _ m = Some r /\ length theta = ntheta m /\ length beta = mo_p _ m /\
  report_estim Rnum (rt_lower _ r) (ntheta m) (theta ++ beta) = theta' ++ beta /\ length theta' = ntheta m /\
  exists k, (k < n)%nat /\ covariance m theta' k k <> covariance m theta k k.
Proof.
  destruct (proper_concat 2 case_m1 case_m2 case_p1 case_p2) as [m [H _]].
  assert (exists r, mo_re _ m = Some r /\ rt_lower _ r = [Zero] /\ ntheta m = 4%nat /\ mo_p _ m = 1%nat) as [r [E [L [T B]]]].
  { pose proof H as H'. unfold concatenate_frames in H'. apply bindOk in H'. destruct H' as [X [_ H']]. apply bindOk in H'. destruct H' as [re [HR H']]. injection H' as <-.
    cbn [case_m1 case_m2 mo_re] in HR. apply bindOk in HR. destruct HR as [Zt [_ HR]]. injection HR as <-. eexists. repeat split. }
  exists 2%nat, case_m1, case_m2, case_r1, case_r2, m, r, [1; 1; -1; 1], [0], [1; 1; 1; 1].
  split; [exact case_p1|]. split; [exact case_p2|]. split; [reflexivity|]. split; [reflexivity|]. split; [exact case_b1|]. split; [exact case_b2|].
  split; [exact H|]. split; [exact E|]. split; [now rewrite T|]. split; [now rewrite B|]. split; [|split; [now rewrite T|]].
  - rewrite L, T. unfold report_estim. cbn [forallb andb firstn skipn app map]. rewrite !abs_Rabs. rewrite Rabs_R1. replace (Rabs (-1)) with 1; [reflexivity|].
    rewrite Rabs_left by lra. ring.
  - exists 0%nat. split; [lia|].
    assert (EQ : forall t1 t2 t3, covariance m [1; t1; t2; t3] 0 0 = 1 + (t1 + t2) * (t1 + t2) + t3 * t3).
    { intros t1 t2 t3. unfold covariance. rewrite E.
      destruct (proper_concat 2 case_m1 case_m2 case_p1 case_p2) as [m' [H' [P [_ [_ [N _]]]]]]. rewrite H in H'. injection H' as <-.
      pose proof (pr_re _ _ P r E) as Q. change (nrandom case_m1 + nrandom case_m2)%nat with 3%nat in N. rewrite N.
      assert (FZ : filled r = [[(0%nat, 1%Z)]; [(1%nat, 2%Z)]; [(1%nat, 3%Z); (2%nat, 4%Z)]] /\ cs_rows (rt_Zt _ r) = 3%nat /\
        cs_cols (rt_Zt _ r) = [[(0%nat, 1); (1%nat, 1); (2%nat, 1)]; [(0%nat, 1); (1%nat, 1); (2%nat, 2)]]).
      { pose proof H as H'. unfold concatenate_frames in H'. apply bindOk in H'. destruct H' as [X [_ H']]. apply bindOk in H'. destruct H' as [re [HR H']]. injection H' as <-.
        cbn [case_m1 case_m2 mo_re] in HR. apply bindOk in HR. destruct HR as [Zt [HZ HR]]. injection HR as <-. cbn [mo_re] in E. injection E as <-.
        destruct (rbind_inv Rnum _ _ _ HZ) as [_ ->]. repeat split. }
      destruct FZ as [FI [QR QC]]. unfold sumR at 1. cbn [seq map fold_right]. rewrite !(LZ_filled m r 2) by (try exact Q; lia). rewrite QR, FI.
      assert (EN : forall j, entry (rt_Zt _ r) j 0 = fold_right Rplus 0 (map snd (filter (fun e : nat * R => Nat.eqb (fst e) j) [(0%nat, 1); (1%nat, 1); (2%nat, 1)]))).
      { intros j. exact (f_equal (fun cs => fold_right Rplus 0 (map snd (filter (fun e : nat * R => Nat.eqb (fst e) j) (nth 0 cs [])))) QC). }
      unfold sumR. cbn [seq map fold_right]. rewrite !EN. unfold sumR, LamM, lsum. cbn.
      change (Pos.to_nat 2) with 2%nat. change (Pos.to_nat 3) with 3%nat. change (Pos.to_nat 1) with 1%nat. cbn. ring. }
    rewrite !EQ. lra.
Qed.
