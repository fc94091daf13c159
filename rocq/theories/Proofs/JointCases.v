(** A case for C54: a chain of three items. *)
From Coq Require Import List Reals Lia Lra Arith ZArith Bool.
From Verif Require Import Model.Base Model.Mixed Model.ClusterGraph Model.Vectors Model.MultiNormal Model.NormalSig
  Spec.GLMMSpec Spec.MatrixSpec Spec.TreeSpec Spec.JointSpec Proofs.PosDef Proofs.BasisMain Proofs.NormalCases Proofs.DensityJoint Proofs.MessageLemmas Proofs.MessageMain.
Import ListNotations.
Local Open Scope R_scope.

(** A routine that inverts every matrix, with formulas for the small ones. *)
Definition inv_all (m : rmat) : rmat :=
  match m with
  | [] => []
  | [[a]] => [[/ a]]
  | [[a; b]; [c; d]] =>
      let det := a * d - b * c in [[d / det; - b / det]; [- c / det; a / det]]
  | _ => some_inverse m
  end.

Lemma inv_all_small A d B : are_inverse d A B -> (d <= 2)%nat -> inv_all A = B.
Proof.
  intros H Hd. apply (inverse_unique d A); auto. destruct H as ((LA & RA) & (LB & RB) & H).
  destruct d as [|[|[|d]]]; [| | |lia].
  - destruct A; [|discriminate]. repeat split; auto; intros; lia.
  - destruct A as [|r [|]]; try discriminate. pose proof (RA 0%nat ltac:(lia)) as Rr. cbn in Rr. destruct r as [|a [|]]; try discriminate.
    destruct (H 0%nat 0%nat ltac:(lia) ltac:(lia)) as [E _]. revert E. sums. intros E.
    assert (a <> 0) by (intros ->; lra).
    split; [|split]; [split; [reflexivity|intros i Hi; replace i with 0%nat by lia; reflexivity]..|].
    intros i j Hi Hj. replace i with 0%nat by lia. replace j with 0%nat by lia. split; sums; field; auto.
  - destruct A as [|r [|r' [|]]]; try discriminate.
    pose proof (RA 0%nat ltac:(lia)) as R0. pose proof (RA 1%nat ltac:(lia)) as R1. cbn in R0, R1.
    destruct r as [|a [|b [|]]]; try discriminate. destruct r' as [|c [|d [|]]]; try discriminate.
    destruct B as [|r [|r' [|]]]; try discriminate.
    pose proof (RB 0%nat ltac:(lia)) as S0. pose proof (RB 1%nat ltac:(lia)) as S1. cbn in S0, S1.
    destruct r as [|e [|f [|]]]; try discriminate. destruct r' as [|g [|h [|]]]; try discriminate.
    destruct (H 0%nat 0%nat ltac:(lia) ltac:(lia)) as [E00 _]. destruct (H 0%nat 1%nat ltac:(lia) ltac:(lia)) as [E01 _].
    destruct (H 1%nat 0%nat ltac:(lia) ltac:(lia)) as [E10 _]. destruct (H 1%nat 1%nat ltac:(lia) ltac:(lia)) as [E11 _].
    revert E00 E01 E10 E11. sums. intros E00 E01 E10 E11.
    assert (Det : (a * d - b * c) * (e * h - f * g) = 1).
    { transitivity ((a * e + (b * g + 0)) * (c * f + (d * h + 0)) - (a * f + (b * h + 0)) * (c * e + (d * g + 0))); [ring|].
      rewrite E00, E01, E10, E11. ring. }
    assert (a * d - b * c <> 0) by (intros Z; rewrite Z in Det; lra).
    split; [|split]; [split; [reflexivity|intros i Hi; small_index i; reflexivity]..|].
    intros i j Hi Hj. small_index i; small_index j; split; sums; field; auto.
Qed.
Lemma inv_all_inverts d A : inverts inv_all d A.
Proof.
  intros B H. destruct (le_lt_dec d 2) as [Hd|Hd]; [apply (inv_all_small A d B H Hd)|].
  assert (L : length A = d) by apply H.
  assert (E : inv_all A = some_inverse A).
  { destruct A as [|r [|r' [|]]]; simpl in L; try lia. 
    destruct r as [|? [|? [|]]], r' as [|? [|? [|]]]; reflexivity. }
  rewrite E. apply (some_inverse_inverts d A B H).
Qed.

(** Items 1, 2, 3 in a chain; the factors are their scopes. *)
Definition chain_sig : sig :=
  normal_sig inv_all det_small (fun _ => true) (list Z) (fun s => s) (fun _ _ => 1) (fun _ x => map (fun _ => 0) x)
    (fun _ x => map (fun _ => map (fun _ => 0) x) x) (fun _ _ _ _ _ s => Ok s).
Definition chain : list (list Z) := [[1; 2]; [2; 3]]%Z.
Definition chain_Q (x y : Z) : R := if Z.eqb x y then 2 else if Z.eqb (Z.abs (x - y)) 1 then 1 else 0.
Definition chain_Sigma (x y : Z) : R :=
  if Z.eqb x y then (if Z.eqb x 2 then 1 else 3 / 4) else if Z.eqb (Z.abs (x - y)) 1 then - (1 / 2) else 1 / 4.
Definition chain_mean : list R := [0; 5; 6; 7].

Lemma chain_items x : In x [1; 2; 3]%Z <-> exists f, In f chain /\ In x f.
Proof.
  split.
  - intros [<-|[<-|[<-|[]]]]; [exists [1; 2]%Z|exists [1; 2]%Z|exists [2; 3]%Z]; simpl; auto.
  - intros (f & [<-|[<-|[]]] & H); simpl in *; intuition.
Qed.
Lemma chain_joint : joint_precision chain [1; 2; 3]%Z chain_Q.
Proof.
  constructor.
  - intros x y _ _. unfold chain_Q. rewrite (Z.eqb_sym x y). replace (Z.abs (x - y)) with (Z.abs (y - x)) by lia. reflexivity.
  - intros w Hw. unfold joint_form, lsumR, chain_Q. cbn.
    assert (0 < w 1%Z * w 1%Z \/ 0 < w 2%Z * w 2%Z \/ 0 < w 3%Z * w 3%Z).
    { destruct Hw as (x & [<-|[<-|[<-|[]]]] & Hx); [left|right; left|right; right]; exact (Rlt_0_sqr _ Hx). }
    assert (0 <= (w 1%Z + w 2%Z) * (w 1%Z + w 2%Z)) by apply Rle_0_sqr. assert (0 <= (w 2%Z + w 3%Z) * (w 2%Z + w 3%Z)) by apply Rle_0_sqr.
    assert (0 <= w 1%Z * w 1%Z) by apply Rle_0_sqr. assert (0 <= w 3%Z * w 3%Z) by apply Rle_0_sqr.
    assert (0 <= (2 * w 1%Z + w 2%Z) * (2 * w 1%Z + w 2%Z)) by apply Rle_0_sqr. assert (0 <= (w 2%Z + 2 * w 3%Z) * (w 2%Z + 2 * w 3%Z)) by apply Rle_0_sqr.
    nra.
  - intros x y [<-|[<-|[<-|[]]]] [<-|[<-|[<-|[]]]] Hne H; try congruence; unfold chain_Q in H; cbn in H; try lra;
      [exists [1; 2]%Z|exists [1; 2]%Z|exists [2; 3]%Z|exists [2; 3]%Z]; simpl; auto.
Qed.
Lemma chain_variance : joint_variance [1; 2; 3]%Z chain_Q chain_Sigma.
Proof.
  intros x z [<-|[<-|[<-|[]]]] [<-|[<-|[<-|[]]]]; unfold lsumR, chain_Q, chain_Sigma; cbn; lra.
Qed.
Lemma two_steps {A B C} (o : outcome A) (f : A -> outcome B) (g : B -> C) v :
  match bind o f with Ok y => Some (g y) | _ => None end = Some v -> exists x y, o = Ok x /\ f x = Ok y /\ g y = v.
Proof.
  destruct o as [x| | |]; cbn; try discriminate. destruct (f x) as [y| | |] eqn:E; cbn; try discriminate.
  intros H. injection H as H. eauto.
Qed.
Lemma chain_build : exists cg cg', build (S := chain_sig) chain = Ok cg /\ cg_setNormalApprox cg chain_mean chain_Q = Ok cg' /\
  map m_items (cg_clusters cg') = [[1; 2]; [2; 3]]%Z.
Proof.
  apply (two_steps (build (S := chain_sig) chain) (fun cg => cg_setNormalApprox cg chain_mean chain_Q)
           (fun cg => map m_items (cg_clusters cg)) [[1; 2]; [2; 3]]%Z).
  vm_compute. reflexivity.
Qed.

Lemma chain_twice : exists cg cg1 cg2, build (S := chain_sig) chain = Ok cg /\ cg_setNormalApprox cg chain_mean chain_Q = Ok cg1 /\
  cg_setNormalApprox cg1 [0; 8; 9; 10] chain_Q = Ok cg2 /\ length (cg_clusters cg2) = 2%nat.
Proof.
  destruct (two_steps (bind (build (S := chain_sig) chain) (fun cg => cg_setNormalApprox cg chain_mean chain_Q))
              (fun cg => cg_setNormalApprox cg [0; 8; 9; 10] chain_Q)
           (fun cg => length (cg_clusters cg)) 2%nat) as (cg1 & cg2 & E1 & E2 & E3).
  - vm_compute. reflexivity.
  - apply bind_Ok in E1. destruct E1 as (cg & E0 & E1). eauto 10.
Qed.

(** A second call: the normal approximations of the clusters stay what they are. *)
Lemma mixed_fixed S (m o o' : mixed S) : m_fixed m = true ->
  m_normal (mixed_div (mixed_mul m o) o') = m_normal m /\ m_fixed (mixed_div (mixed_mul m o) o') = true.
Proof. intros H. unfold mixed_div, mixed_mul, recompute. cbn. rewrite H. auto. Qed.
Lemma upd_map_same {A B} (f : A -> B) l k x y : nth_error l k = Some y -> f x = f y -> map f (upd l k x) = map f l.
Proof.
  revert k. induction l as [|a l IH]; intros [|k] E H; simpl in *; try discriminate.
  - injection E as ->. rewrite H. reflexivity.
  - rewrite (IH k) by auto. reflexivity.
Qed.
Lemma pass_fixed S (cg cg' : cgraph S) k fw na : passMessage cg k fw na = Ok cg' ->
  forallb m_fixed (cg_clusters cg) = true ->
  map m_normal (cg_clusters cg') = map m_normal (cg_clusters cg) /\ forallb m_fixed (cg_clusters cg') = true.
Proof.
  intros E F. unfold passMessage in E. apply bind_Ok in E. destruct E as (e & Ee & E).
  apply bind_Ok in E. destruct E as (ci & Ei & E). apply bind_Ok in E. destruct E as (e' & Ep & E).
  apply bind_Ok in E. destruct E as (cj & Ej & E). apply bind_Ok in E. destruct E as (pr & _ & E).
  destruct pr; [|discriminate]. injection E as <-. cbn [cg_clusters].
  unfold zat, vec_at in Ej. destruct (_ <? 0)%Z; [discriminate|].
  destruct (nth_error (cg_clusters cg) _) as [x|] eqn:Nj in Ej; [|discriminate]. injection Ej as <-. rename x into cj.
  assert (Fj : m_fixed cj = true) by (rewrite forallb_forall in F; apply F; eapply nth_error_In; eauto).
  destruct (mixed_fixed S cj (e_belief e') (e_belief e) Fj) as [Nn Nf]. split.
  - apply (upd_map_same m_normal _ _ _ cj); auto.
  - set (m := mixed_div _ _) in *. clearbody m. clear -F Nf. revert F.
    generalize (Z.to_nat (if fw then e_second e else e_first e)) as n.
    induction (cg_clusters cg) as [|c l IH]; intros [|n] F; simpl in *; auto; apply andb_prop in F; destruct F as [F1 F2].
    + rewrite Nf. auto.
    + rewrite F1. cbn. apply IH; auto.
Qed.
Lemma calibrate_fixed S (cg cg' : cgraph S) fw na : calibrateInternal cg fw na = Ok cg' ->
  forallb m_fixed (cg_clusters cg) = true ->
  map m_normal (cg_clusters cg') = map m_normal (cg_clusters cg) /\ forallb m_fixed (cg_clusters cg') = true.
Proof.
  unfold calibrateInternal. generalize (if fw then seq 0 (length (cg_edges cg)) else rev (seq 0 (length (cg_edges cg)))).
  intros l. revert cg. induction l as [|k l IH]; intros cg E F; cbn in E.
  - injection E as <-. auto.
  - apply bind_Ok in E. destruct E as (c1 & E1 & E). destruct (pass_fixed S cg c1 k fw na E1 F) as [A1 F1].
    destruct (IH c1 E F1) as [A2 F2]. rewrite A2. auto.
Qed.
Theorem C54_once S (cg cg1 cg2 : cgraph S) mean1 Q1 mean2 Q2 :
  cg_setNormalApprox cg mean1 Q1 = Ok cg1 -> cg_setNormalApprox cg1 mean2 Q2 = Ok cg2 ->
  map m_normal (cg_clusters cg2) = map m_normal (cg_clusters cg1).
Proof.
  intros E1 E2.
  assert (F : forallb m_fixed (cg_clusters cg1) = true).
  { unfold cg_setNormalApprox in E1. apply bind_Ok in E1. destruct E1 as (? & _ & E1).
    apply bind_Ok in E1. destruct E1 as (? & _ & E1). apply bind_Ok in E1. destruct E1 as (? & _ & E1).
    apply bind_Ok in E1. destruct E1 as (c & _ & E1). injection E1 as <-. cbn [cg_clusters].
    apply forallb_forall. intros z Hz. apply in_map_iff in Hz. destruct Hz as (y & <- & _). reflexivity. }
  unfold cg_setNormalApprox in E2. apply bind_Ok in E2. destruct E2 as (cl & A & E2).
  apply bind_Ok in E2. destruct E2 as (? & _ & E2). apply bind_Ok in E2. destruct E2 as (c3 & C3 & E2).
  apply bind_Ok in E2. destruct E2 as (c4 & C4 & E2). injection E2 as <-. cbn [cg_clusters].
  assert (Same : cl = cg_clusters cg1).
  { clear -A F. revert cl A. induction (cg_clusters cg1) as [|c l IH]; intros cl A; cbn in A.
    - injection A as <-. reflexivity.
    - simpl in F. apply andb_prop in F. destruct F as [F1 F2]. apply bind_Ok in A. destruct A as (y & Ey & A).
      apply bind_Ok in A. destruct A as (ys & Es & A). injection A as <-. apply bind_Ok in Ey. destruct Ey as (v & _ & Ey).
      injection Ey as <-. rewrite (IH F2 ys Es). unfold setNormalApprox. rewrite F1. reflexivity. }
  subst cl. destruct (calibrate_fixed S _ _ _ _ C3 F) as [A3 F3]. destruct (calibrate_fixed S _ _ _ _ C4 F3) as [A4 _].
  cbn [cg_clusters] in A3. rewrite map_map. cbn [m_normal fixNormalApprox]. etransitivity; [exact A4|exact A3].
Qed.
