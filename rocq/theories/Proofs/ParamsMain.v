From Coq Require Import String List ZArith Reals Lia.
From Verif Require Import Model.Base Model.Family Model.SparseGrid Model.Vectors Model.BasisLevel Model.Quadrature Model.Params
  Spec.ParamsSpec Spec.SplineSpec Spec.MatrixSpec Spec.HermiteSpec Proofs.StoreCases Proofs.LevelMain Proofs.BasisMain.
Import ListNotations.

Section S.
Variables (q : R -> R) (inverse : rmat -> rmat) (solve : rmat -> rmat -> rmat) (es : rmat -> rvec * rmat).
Hypothesis Q : is_normal_quantile q.
Hypothesis Inv : forall d A, inverts inverse d A.
Hypothesis Sol : solves_systems solve.
Hypothesis Es : forall n, (1 <= n)%nat -> length (fst (es (findHermiteJacobi n))) = n.

(** The object that holds the given settings. *)
Definition holds (p : params) (t b : list R) (f l : string) (n m : Z) : Prop :=
  pa_theta p = t /\ pa_beta p = b /\ getParametersFamily p = Ok f /\ getParametersLink p = Ok l /\
  getParametersNSparseLevels p = Ok n /\ getParametersNQuadraturePoints p = Ok m /\
  ((0 <= n)%Z -> basis_new q inverse solve (Z.to_nat n) = Ok (mkBasis (pa_levels p) (Z.to_nat n))) /\
  ((n < 0)%Z -> pa_levels p = []) /\ pa_rule p = rule_initialize es (Z.to_nat m).

Lemma basis_ok n : (n < 0 \/ 1 <= n <= 25)%Z -> exists bs, basis_levels q inverse solve n = Ok bs /\
  ((0 <= n)%Z -> basis_new q inverse solve (Z.to_nat n) = Ok (mkBasis bs (Z.to_nat n))) /\ ((n < 0)%Z -> bs = []).
Proof.
  intros H. unfold basis_levels. destruct (Z.eqb_spec n (2 ^ 31 - 1)); [exfalso; lia|]. destruct (Z.ltb_spec n 0).
  - exists []. split; auto. split; [lia|auto].
  - destruct (real_basis q inverse solve (Z.to_nat n) Q ltac:(lia) Inv Sol) as (b & x & phi & p1 & p2 & E & _).
    rewrite E. cbn [bind]. exists (b_levels b). split; auto. split; [|lia]. intros _. f_equal.
    unfold basis_new in E. destruct (mapM _ _); cbn [bind] in E; try discriminate. injection E as <-. reflexivity.
Qed.
Lemma rule_ok n : (1 <= n)%Z -> exists r, rule_new es n = Ok r /\ r = rule_initialize es (Z.to_nat n) /\ Z.of_nat (length (qr_nodes r)) = n.
Proof.
  intros H. unfold rule_new. destruct (Z.ltb_spec n 1); [lia|]. eexists. split; [reflexivity|]. split; auto.
  specialize (Es (Z.to_nat n) ltac:(lia)). unfold rule_initialize. destruct (es (findHermiteJacobi (Z.to_nat n))) as [ev V]. cbn in *. lia.
Qed.
Lemma known_family_spec s : known_family s = true -> familyGivenMean_initialize s = Ok Binomial /\ s = "binomial"%string.
Proof. unfold known_family. destruct (string_dec s "binomial"); [intros _; subst; auto|discriminate]. Qed.
Lemma unknown_family_spec s : known_family s = false -> familyGivenMean_initialize s = Throw DomainError.
Proof.
  unfold known_family, familyGivenMean_initialize. destruct (string_dec s "binomial"); [discriminate|]. intros _.
  destruct (String.eqb_spec s "binomial"); congruence.
Qed.
Lemma known_link_spec s : known_link s = true -> exists l, link_initialize s = Ok l /\ linkName (Some l) = Ok s.
Proof.
  unfold known_link. destruct (in_dec string_dec s ["logit"; "probit"]%string) as [[<-|[<-|[]]]|]; [..|discriminate]; intros _; eexists; split; reflexivity.
Qed.
Lemma unknown_link_spec s : known_link s = false -> link_initialize s = Throw DomainError.
Proof.
  unfold known_link, link_initialize. destruct (in_dec string_dec s ["logit"; "probit"]%string) as [|N]; [discriminate|]. intros _.
  destruct (String.eqb_spec s "logit"); [exfalso; apply N; subst; cbn; auto|].
  destruct (String.eqb_spec s "probit"); [exfalso; apply N; subst; cbn; auto|]. reflexivity.
Qed.

Definition pick {A} (f : assignment -> option A) (a : A) (c : assignment) : A := match f c with Some v => v | None => a end.
Lemma assign_holds p t b f l n m c : holds p t b f l n m -> in_range c -> exists p',
  (assign q inverse solve es p c = (p', Ok tt) /\ accepted c = true \/ assign q inverse solve es p c = (p', Throw DomainError) /\ accepted c = false) /\
  holds p' (pick theta_of t c) (pick beta_of b c) (pick family_of f c) (pick link_of l c) (pick levels_of n c) (pick points_of m c).
Proof.
  intros (H1 & H2 & H3 & H4 & H5 & H6 & H7 & H8 & H9) R. destruct c as [v|v|s|s|k|k]; cbn [assign accepted in_range] in *;
    unfold pick; cbn [theta_of beta_of family_of link_of levels_of points_of].
  - eexists. split; [left; split; reflexivity|]. repeat split; auto.
  - eexists. split; [left; split; reflexivity|]. repeat split; auto.
  - unfold setParametersFamily. destruct (known_family s) eqn:K.
    + destruct (known_family_spec s K) as [-> Es']. cbn [attempt]. eexists. split; [left; split; reflexivity|]. subst s. repeat split; auto.
    + rewrite (unknown_family_spec s K). cbn [attempt]. exists p. split; [right; auto|]. repeat split; auto.
  - unfold setParametersLink. destruct (known_link s) eqn:K.
    + destruct (known_link_spec s K) as (x & -> & E). cbn [attempt]. eexists. split; [left; split; reflexivity|]. repeat split; auto.
    + rewrite (unknown_link_spec s K). cbn [attempt]. exists p. split; [right; auto|]. repeat split; auto.
  - unfold setParametersNSparseLevels. destruct (basis_ok k R) as (bs & -> & B1 & B2). cbn [attempt]. eexists. split; [left; split; reflexivity|].
    repeat split; auto.
  - unfold setParametersNQuadraturePoints. destruct (rule_ok k R) as (r & -> & Er & Ln). cbn [attempt]. eexists. split; [left; split; reflexivity|].
    repeat split; auto. unfold getParametersNQuadraturePoints. cbn [pa_rule]. now rewrite Ln.
Qed.
Lemma session_holds cs : forall p t b f l n m, holds p t b f l n m -> List.Forall in_range cs -> exists p',
  session q inverse solve es p cs = Ok (map accepted cs, p') /\
  holds p' (last_set theta_of t cs) (last_set beta_of b cs) (last_set family_of f cs) (last_set link_of l cs)
    (last_set levels_of n cs) (last_set points_of m cs).
Proof.
  induction cs as [|c cs IH]; intros p t b f l n m H F; cbn [session last_set map].
  - exists p. auto.
  - inversion F as [|? ? R F']; subst. destruct (assign_holds p t b f l n m c H R) as (p' & E & H').
    destruct (IH _ _ _ _ _ _ _ H' F') as (p2 & E2 & H2). exists p2. split; [|exact H2].
    destruct E as [[-> ->]|[-> ->]]; rewrite E2; reflexivity.
Qed.
Lemma make_holds : exists p, makeParametersR q inverse solve es = (p, Ok tt) /\ holds p [] [] "binomial" "logit" 1 1.
Proof.
  unfold makeParametersR, and_then, setParametersNSparseLevels, setParametersNQuadraturePoints.
  destruct (basis_ok 1 ltac:(lia)) as (bs & E & B1 & B2). destruct (rule_ok 1 ltac:(lia)) as (r & E' & Er & Ln).
  unfold setTheta, setBeta, setParametersFamily, setParametersLink.
  change (familyGivenMean_initialize "binomial") with (Ok Binomial). change (link_initialize "logit") with (Ok Logit).
  cbn [attempt fst snd]. rewrite E. cbn [attempt fst snd]. rewrite E'. cbn [attempt fst snd].
  eexists. split; [reflexivity|]. repeat split; auto. unfold getParametersNQuadraturePoints. cbn [pa_rule]. now rewrite Ln.
Qed.
Lemma C36_main cs : List.Forall in_range cs -> exists p0 p,
  makeParametersR q inverse solve es = (p0, Ok tt) /\ session q inverse solve es p0 cs = Ok (map accepted cs, p) /\
  pa_theta p = last_set theta_of [] cs /\ pa_beta p = last_set beta_of [] cs /\
  getParametersFamily p = Ok (last_set family_of "binomial"%string cs) /\ getParametersLink p = Ok (last_set link_of "logit"%string cs) /\
  getParametersNSparseLevels p = Ok (last_set levels_of 1%Z cs) /\ getParametersNQuadraturePoints p = Ok (last_set points_of 1%Z cs) /\
  pa_rule p = rule_initialize es (Z.to_nat (last_set points_of 1%Z cs)) /\
  ((0 <= last_set levels_of 1 cs)%Z -> basis_new q inverse solve (Z.to_nat (last_set levels_of 1%Z cs)) =
     Ok (mkBasis (pa_levels p) (Z.to_nat (last_set levels_of 1%Z cs)))).
Proof.
  intros F. destruct make_holds as (p0 & E0 & H0). destruct (session_holds cs _ _ _ _ _ _ _ H0 F) as (p & E & H1 & H2 & H3 & H4 & H5 & H6 & H7 & H8 & H9).
  exists p0, p. repeat split; auto.
Qed.
End S.

Lemma attempt_throw {A} p (o : outcome A) k p' e : (forall a, snd (k a) = Ok tt) -> attempt p o k = (p', Throw e) -> p' = p.
Proof.
  intros H E. destruct o as [a|e'| |]; cbn in E; try discriminate.
  - specialize (H a). rewrite E in H. discriminate.
  - now injection E.
Qed.
Lemma C36_unchanged_main q inverse solve es p c p' e : assign q inverse solve es p c = (p', Throw e) -> p' = p.
Proof.
  destruct c as [v|v|s|s|k|k]; cbn [assign]; unfold setTheta, setBeta; try discriminate;
    apply attempt_throw; intros; reflexivity.
Qed.
Lemma C36_zero_main q inverse solve es p n : snd (assign q inverse solve es p (SetSparseLevels 0)) = UB /\
  ((n < 1)%Z -> snd (assign q inverse solve es p (SetQuadraturePoints n)) = UB).
Proof.
  split.
  - cbn [assign]. unfold setParametersNSparseLevels, basis_levels. cbn [Z.eqb Z.ltb Z.to_nat].
    change (Z.eqb 0 (2 ^ 31 - 1)) with false. change (Z.ltb 0 0) with false. cbv iota. change (Z.to_nat 0) with 0%nat.
    rewrite C34_zero_main. reflexivity.
  - intros H. cbn [assign]. unfold setParametersNQuadraturePoints, rule_new. destruct (Z.ltb_spec n 1); [reflexivity|lia].
Qed.

(** A history with accepted and rejected assignments, used as an example. *)
Definition some_history : list assignment :=
  [SetLink "probit"; SetSparseLevels 4; SetLink "cloglog"; SetFamily "poisson"; SetTheta [1%R]; SetQuadraturePoints 15; SetSparseLevels (-1); SetSparseLevels 3].
