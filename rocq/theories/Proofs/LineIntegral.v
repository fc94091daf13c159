(** Substitution in integrals over the line and over space. *)
From Coq Require Import List Reals Lia Lra Classical.
From Coquelicot Require Import Coquelicot.
From Verif Require Import Spec.GLMMSpec Spec.ISSpec.
Import ListNotations.
Local Open Scope R_scope.

Local Notation is_line f l := (is_RInt_gen (V := R_NormedModule) f (Rbar_locally m_infty) (Rbar_locally p_infty) l).

Lemma is_line_affine (f : R -> R) (s c l : R) : 0 < s -> is_line f l -> is_line (fun x => s * f (s * x + c)) l.
Proof.
  intros S H P HP. destruct (H P HP) as [Q1 Q2 H1 H2 H3]. exists (fun a => Q1 (s * a + c)) (fun b => Q2 (s * b + c)).
  - destruct H1 as [M H1]. exists ((M - c) / s). intros x Hx. apply H1. apply (Rmult_lt_compat_l s) in Hx; [|exact S].
    replace (s * ((M - c) / s)) with (M - c) in Hx by (field; lra). lra.
  - destruct H2 as [M H2]. exists ((M - c) / s). intros x Hx. apply H2. apply (Rmult_lt_compat_l s) in Hx; [|exact S].
    replace (s * ((M - c) / s)) with (M - c) in Hx by (field; lra). lra.
  - intros a b Ha Hb. destruct (H3 _ _ Ha Hb) as [y [I Py]]. exists y. split; [|exact Py]. cbn [fst snd] in *.
    exact (is_RInt_comp_lin (V := R_NormedModule) f s c a b y I).
Qed.

Lemma is_line_ext (f g : R -> R) l : (forall x, f x = g x) -> is_line f l -> is_line g l.
Proof.
  intros E H P HP. destruct (H P HP) as [Q1 Q2 H1 H2 H3]. exists Q1 Q2; try assumption.
  intros a b Ha Hb. destruct (H3 _ _ Ha Hb) as [y [I Py]]. exists y. split; [|exact Py]. apply (is_RInt_ext f); [|exact I]. intros x _. apply E.
Qed.

Lemma iota_same (P Q : R -> Prop) : (forall l, P l <-> Q l) -> iota (T := R_CompleteSpace) P = iota (T := R_CompleteSpace) Q.
Proof.
  intros H. apply (eq_close (K := R_AbsRing) (V := R_NormedModule)). exact (close_iota (T := R_CompleteSpace) P Q H).
Qed.

Lemma line_ext (f g : R -> R) : (forall x, f x = g x) -> line f = line g.
Proof.
  intros E. unfold line, RInt_gen. apply iota_same. intros l. split; apply is_line_ext; [exact E|]. intros x. symmetry. apply E.
Qed.

Lemma line_affine (f : R -> R) (s c : R) : 0 < s -> line (fun x => s * f (s * x + c)) = line f.
Proof.
  intros S. unfold line, RInt_gen. apply iota_same. intros l. split; [|now apply is_line_affine]. intros H.
  apply (is_line_ext (fun x => / s * (s * f (s * (/ s * x + - c / s) + c)))).
  - intros x. rewrite <- Rmult_assoc, Rinv_l, Rmult_1_l by lra. f_equal. field. lra.
  - apply (is_line_affine (fun x => s * f (s * x + c)) (/ s) (- c / s)); [now apply Rinv_0_lt_compat|exact H].
Qed.

(** Without a limit the value is 0. *)
Lemma iota_none (P : R -> Prop) : (forall l, ~ P l) -> iota (T := R_CompleteSpace) P = 0.
Proof.
  intros H. unfold iota. cbn. unfold R_complete_lim. replace (Lub_Rbar _) with p_infty; [reflexivity|].
  symmetry. apply is_lub_Rbar_unique. split; [now intros x _|]. intros [b| |] Hb; try exact I.
  - specialize (Hb (b + 1)). cbn in Hb. exfalso. assert (b + 1 <= b); [|lra]. apply Hb. intros x Px. destruct (H x Px).
  - specialize (Hb 0). cbn in Hb. apply Hb. intros x Px. destruct (H x Px).
Qed.

Lemma is_line_scal (f : R -> R) c l : is_line f l -> is_line (fun x => c * f x) (c * l).
Proof. intros H. exact (is_RInt_gen_scal (V := R_NormedModule) f c l H). Qed.

Lemma line_unique f l : is_line f l -> line f = l.
Proof. intros H. exact (is_RInt_gen_unique (V := R_CompleteNormedModule) f l H). Qed.

Lemma line_scal (f : R -> R) c : line (fun x => c * f x) = c * line f.
Proof.
  destruct (classic (exists l, is_line f l)) as [[l H]|N].
  - rewrite (line_unique f l H). apply line_unique. now apply is_line_scal.
  - assert (Z : line f = 0) by (unfold line, RInt_gen; apply iota_none; intros l Hl; apply N; now exists l). rewrite Z, Rmult_0_r.
    destruct (Req_dec c 0) as [->|C].
    + rewrite (line_ext _ (fun x => 0 * 0)) by (intros; ring). apply line_unique.
      apply (is_line_ext (fun _ => 0)); [intros; ring|].
      intros P HP. exists (fun _ => True) (fun _ => True); try apply filter_true. intros a b _ _. exists 0. split.
      * cbn [fst snd]. replace 0 with ((b - a) * 0) at 1 by ring. exact (is_RInt_const (V := R_NormedModule) a b 0).
      * exact (locally_singleton 0 P HP).
    + unfold line, RInt_gen. apply iota_none. intros l Hl. apply N. exists (/ c * l).
      apply (is_line_ext (fun x => / c * (c * f x))); [|now apply is_line_scal]. intros x. field. exact C.
Qed.

Lemma space_ext d g h : (forall u, length u = d -> g u = h u) -> space d g = space d h.
Proof.
  revert g h. induction d as [|d IH]; intros g h H; [now apply H|]. cbn [space]. apply line_ext. intros x. apply IH. intros u U. apply H. cbn. now rewrite U.
Qed.

Lemma space_scal d : forall g c, space d (fun u => c * g u) = c * space d g.
Proof.
  induction d as [|d IH]; intros g c; [reflexivity|]. cbn [space]. rewrite <- line_scal. apply line_ext. intros x. exact (IH (fun u => g (x :: u)) c).
Qed.

(** Maps like z -> c + A z for a lower triangular A with determinant j. *)
Inductive triangular : nat -> R -> (list R -> list R) -> Prop :=
| tri_0 T : T [] = [] -> triangular 0 1 T
| tri_S d j s c (T : list R -> list R) (T' : R -> list R -> list R) : 0 < s ->
    (forall x z, length z = d -> T (x :: z) = (s * x + c) :: T' x z) -> (forall x, triangular d j (T' x)) -> triangular (S d) (s * j) T.

Lemma space_triangular d j T : triangular d j T -> forall g, space d (fun z => j * g (T z)) = space d g.
Proof.
  induction 1 as [T H|d j s c T T' S H _ IH]; intros g; [cbn; rewrite H; ring|]. cbn [space].
  rewrite <- (line_affine (fun y => space d (fun u => g (y :: u))) s c S). apply line_ext. intros x.
  rewrite <- (IH x (fun u => g ((s * x + c) :: u))), <- space_scal. apply space_ext. intros z Z. rewrite H by exact Z. ring.
Qed.
