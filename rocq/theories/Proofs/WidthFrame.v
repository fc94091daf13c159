(** C59: model frames whose random effects have a narrow junction tree are accepted. *)
From Coq Require Import String List ZArith Reals Lia.
From Verif Require Import Model.Base Model.Family Model.GLMM Model.SplitFrame Model.Vectors Model.Mixed Model.MultiNormal Model.NormalSig
  Model.ClusterGraph Model.LfunSR Spec.Numbers Spec.GLMMSpec Spec.SplitSpec Spec.TreeSpec Spec.LfunSpec Spec.WidthSpec
  Proofs.SplitMain Proofs.BuildLemmas Proofs.ClusterMain Proofs.LfunMain Proofs.WidthMain.
Import ListNotations.

Section F.
Context (inverse : rmat -> rmat) (determinant : rmat -> R) (isnormal : R -> bool).
Context (T : Type) (t_scope : T -> list Z) (t_eval : T -> rvec -> R) (t_deriv : T -> rvec -> rvec) (t_deriv2 : T -> rvec -> rmat).
Context (t_integral : (rvec -> outcome R) -> (rvec -> outcome rvec) -> (rvec -> outcome rmat) -> nat -> mnormal -> list Z -> outcome T).

Lemma C59_accepted_main : forall fr l nSL bags w, regular fr -> no_empty fr -> (1 <= List.length (cs_cols (fr_Zt _ fr)))%nat ->
  (forall i, In i (fr_Lind _ fr) -> i = 1%Z) ->
  junction_tree bags -> bags_within bags w -> (w <= 3)%nat -> (Z.of_nat w ^ Z.of_nat (2 * nSL) <= 500000)%Z ->
  (forall o, (o < List.length (cs_cols (fr_Zt _ fr)))%nat ->
     exists b, In b bags /\ forall r, depends (fr_Lambdat _ fr) (fr_Zt _ fr) o r -> In (Z.of_nat r) b) ->
  (forall r, In r (effects fr) -> exists b, In b bags /\ In r b) ->
  exists s, find_lfun_SR inverse determinant isnormal T t_scope t_eval t_deriv t_deriv2 t_integral fr 1 "binomial" (link_name l) nSL = Ok s.
Proof.
  intros fr l nSL bags w Reg Ne Obs HL J W W3 Hc Cov1 Cov2.
  destruct (C57_setup_main inverse determinant isnormal T t_scope t_eval t_deriv t_deriv2 t_integral fr l nSL Reg Ne Obs HL)
    as (ts & bs & cg & Ht & Hb & Hg & [(_ & ->)|(Bad & _)]); [eauto|exfalso].
  set (p := GLMM.mkParams Rnum [] [] (mkFamily l Binomial)) in *.
  set (Sg := sr_sig inverse determinant isnormal T t_scope t_eval t_deriv t_deriv2 t_integral p) in *.
  destruct (C37_terms_main fr Reg Ne Obs) as (ds & Et & Hd & _).
  destruct (C37_scopes_main fr Reg Obs ts Ht) as (Sc & _).
  rewrite Et in Ht. injection Ht as <-. apply beliefs_inv in Hb. destruct Hb as [-> _].
  set (q := cs_rows (fr_Zt Rnum fr)) in *.
  assert (Cases : forall f, In f (beliefs_of inverse determinant T ds q) -> (exists d, f = Glmm d /\ In d ds) \/ exists i, f = Norm [Z.of_nat i] (unit_normal inverse determinant) /\ (i < q)%nat).
  { intros f Hf. unfold beliefs_of in Hf. apply in_app_or in Hf. destruct Hf as [Hf|Hf]; apply in_map_iff in Hf; destruct Hf as (a & <- & Ha); [eauto|].
    right. exists a. apply in_seq in Ha. split; [reflexivity|lia]. }
  destruct (@C59_main Sg (beliefs_of inverse determinant T ds q)) as (cg' & Hg' & _ & _ & (c0 & _ & Hc0) & Hmin).
  { intros f Hf. destruct (Cases f Hf) as [(d & -> & Hin)|(i & -> & Hi)]; cbn.
    - now apply (Hd d).
    - constructor; [intros []|constructor]. }
  assert (cg' = cg) as -> by (assert (Ok cg' = Ok cg) as X by (rewrite <- Hg'; exact Hg); now injection X).
  assert (Hw : (width cg <= Z.of_nat w)%Z).
  { apply (Hmin bags); auto. intros s Hs. apply in_map_iff in Hs. destruct Hs as (f & <- & Hf).
    destruct (Cases f Hf) as [(d & -> & Hin)|(i & -> & Hi)].
    - destruct (Sc d) as (o & Ho & Hi). { apply in_or_app. left. now apply in_map. }
      destruct (Cov1 o Ho) as (b & Hbb & Hin'). exists b. split; auto. intros x Hx. apply Hi in Hx. destruct Hx as (r & -> & D). auto.
    - destruct (Cov2 (Z.of_nat i)) as (b & Hbb & Hin').
      { unfold effects. apply in_map. apply in_seq. fold q. lia. }
      exists b. split; auto. intros x [<-|[]]. auto. }
  assert (0 <= width cg)%Z by (rewrite Hc0; lia).
  pose proof (Z.pow_le_mono_l (width cg) (Z.of_nat w) (Z.of_nat (2 * nSL)) (conj H Hw)). lia.
Qed.
End F.
