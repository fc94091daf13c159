(** A decision procedure for equations in the abelian group of a signature. *)
From Coq Require Import List ZArith Bool Lia.
From Verif Require Import Model.Mixed Spec.BeliefSpec Proofs.MixedLemmas.
Import ListNotations.

Inductive gexp := GV (n : nat) | GZ | GA (a b : gexp) | GS (a b : gexp) | GO (a : gexp).

Section G.
Variable S : sig.
Hypothesis L : group_laws S.
Notation add := (dadd S).
Notation opp := (dopp S).
Notation zero := (dzero S).

Fixpoint gden (env : list (D S)) (e : gexp) : D S :=
  match e with
  | GV n => nth n env zero
  | GZ => zero
  | GA a b => add (gden env a) (gden env b)
  | GS a b => dsub S (gden env a) (gden env b)
  | GO a => opp (gden env a)
  end.

Fixpoint nmul (n : nat) (x : D S) : D S :=
  match n with O => zero | Datatypes.S k => add x (nmul k x) end.
Definition zmul (z : Z) (x : D S) : D S :=
  match z with
  | Z0 => zero
  | Zpos p => nmul (Pos.to_nat p) x
  | Zneg p => opp (nmul (Pos.to_nat p) x)
  end.

Lemma nmul_add a b x : nmul (a + b) x = add (nmul a x) (nmul b x).
Proof.
  induction a; simpl; [now rewrite d_zero_l|]. rewrite IHa. now apply gl_assoc.
Qed.
Lemma nmul_sub a b x : (b <= a)%nat -> nmul (a - b) x = add (nmul a x) (opp (nmul b x)).
Proof.
  intros H. replace a with (a - b + b)%nat at 2 by lia. rewrite nmul_add.
  rewrite <- (gl_assoc S L), (gl_opp S L). now rewrite (gl_zero S L).
Qed.
Lemma zmul_nat n x : zmul (Z.of_nat n) x = nmul n x.
Proof. destruct n; simpl; auto. now rewrite SuccNat2Pos.id_succ. Qed.
Lemma zmul_opp z x : zmul (- z) x = opp (zmul z x).
Proof. destruct z; simpl; auto; [now rewrite d_opp_zero| now rewrite d_opp_opp]. Qed.
Lemma zmul_add a b x : zmul (a + b) x = add (zmul a x) (zmul b x).
Proof.
  assert (P : forall n m, zmul (Z.of_nat n - Z.of_nat m) x = add (nmul n x) (opp (nmul m x))).
  { intros n m. destruct (Nat.le_ge_cases m n).
    - rewrite <- Nat2Z.inj_sub, zmul_nat by auto. now apply nmul_sub.
    - replace (Z.of_nat n - Z.of_nat m)%Z with (- Z.of_nat (m - n))%Z by lia.
      rewrite zmul_opp, zmul_nat, nmul_sub by auto. rewrite d_opp_add, d_opp_opp by auto.
      now apply gl_comm. }
  assert (E : forall z, exists n m, z = (Z.of_nat n - Z.of_nat m)%Z).
  { intros z. exists (Z.to_nat z), (Z.to_nat (- z)). lia. }
  destruct (E a) as (n & m & ->), (E b) as (n' & m' & ->).
  replace (Z.of_nat n - Z.of_nat m + (Z.of_nat n' - Z.of_nat m'))%Z
     with (Z.of_nat (n + n') - Z.of_nat (m + m'))%Z by lia.
  rewrite !P, !nmul_add, d_opp_add by auto. now apply d_swap4.
Qed.

Fixpoint coef (e : gexp) (i : nat) : Z :=
  match e with
  | GV n => if Nat.eqb n i then 1 else 0
  | GZ => 0
  | GA a b => coef a i + coef b i
  | GS a b => coef a i - coef b i
  | GO a => - coef a i
  end.

Fixpoint lin (env : list (D S)) (k : nat) (c : nat -> Z) : D S :=
  match env with
  | [] => zero
  | x :: env' => add (zmul (c k) x) (lin env' (Datatypes.S k) c)
  end.

Lemma lin_ext env : forall k c d, (forall i, c i = d i) -> lin env k c = lin env k d.
Proof. induction env; intros k c d H; simpl; auto. rewrite H. f_equal. auto. Qed.
Lemma lin_zero env : forall k c, (forall i, (k <= i)%nat -> c i = 0%Z) -> lin env k c = zero.
Proof.
  induction env; intros k c H; simpl; auto. rewrite H by lia. simpl. rewrite d_zero_l by auto.
  apply IHenv. intros; apply H; lia.
Qed.
Lemma lin_add env : forall k c d, lin env k (fun i => c i + d i)%Z = add (lin env k c) (lin env k d).
Proof.
  induction env; intros k c d; simpl; [now rewrite (gl_zero S L)|].
  rewrite IHenv, zmul_add. now apply d_swap4.
Qed.
Lemma lin_opp env : forall k c, lin env k (fun i => - c i)%Z = opp (lin env k c).
Proof.
  induction env; intros k c; simpl; [now rewrite d_opp_zero|].
  rewrite IHenv, zmul_opp. now rewrite d_opp_add.
Qed.
Lemma lin_var env : forall k n, (k <= n)%nat ->
  lin env k (fun i => if Nat.eqb n i then 1 else 0)%Z = nth (n - k) env zero.
Proof.
  induction env; intros k n H; simpl; [now destruct (n - k)%nat|].
  destruct (Nat.eqb_spec n k) as [->|Hne].
  - rewrite Nat.sub_diag. simpl. rewrite lin_zero.
    + now rewrite !(gl_zero S L).
    + intros i Hi. destruct (Nat.eqb_spec k i); auto; lia.
  - simpl. rewrite d_zero_l by auto. rewrite IHenv by lia.
    replace (n - k)%nat with (Datatypes.S (n - Datatypes.S k)) by lia. reflexivity.
Qed.

Lemma gden_lin env e : gden env e = lin env 0 (coef e).
Proof.
  induction e; simpl.
  - rewrite lin_var by lia. now rewrite Nat.sub_0_r.
  - rewrite lin_zero; auto.
  - rewrite IHe1, IHe2. symmetry. apply lin_add.
  - rewrite (gl_sub S L), IHe1, IHe2, <- lin_opp, <- lin_add. apply lin_ext. intros; lia.
  - rewrite IHe. symmetry. apply lin_opp.
Qed.

Fixpoint linb (env : list (D S)) (k : nat) (c d : nat -> Z) : bool :=
  match env with
  | [] => true
  | _ :: env' => Z.eqb (c k) (d k) && linb env' (Datatypes.S k) c d
  end.
Lemma linb_sound env : forall k c d, linb env k c d = true -> lin env k c = lin env k d.
Proof.
  induction env; intros k c d H; simpl in *; auto.
  apply andb_true_iff in H. destruct H as [H1 H2]. apply Z.eqb_eq in H1. rewrite H1. f_equal. auto.
Qed.

Lemma gsolve env e1 e2 : linb env 0 (coef e1) (coef e2) = true -> gden env e1 = gden env e2.
Proof. intros H. rewrite !gden_lin. now apply linb_sound. Qed.
End G.

Ltac g_find a env :=
  match env with
  | a :: _ => constr:(Some O)
  | _ :: ?env' => match g_find a env' with
                  | Some ?n => constr:(Some (Datatypes.S n))
                  | None => constr:(@None nat)
                  end
  | _ => constr:(@None nat)
  end.
Ltac g_atoms Sg e env :=
  match e with
  | dadd Sg ?a ?b => let env1 := g_atoms Sg a env in g_atoms Sg b env1
  | dsub Sg ?a ?b => let env1 := g_atoms Sg a env in g_atoms Sg b env1
  | dopp Sg ?a => g_atoms Sg a env
  | dzero Sg => env
  | _ => match g_find e env with Some _ => env | None => constr:(e :: env) end
  end.
Ltac g_reify Sg e env :=
  match e with
  | dadd Sg ?a ?b => let x := g_reify Sg a env in let y := g_reify Sg b env in constr:(GA x y)
  | dsub Sg ?a ?b => let x := g_reify Sg a env in let y := g_reify Sg b env in constr:(GS x y)
  | dopp Sg ?a => let x := g_reify Sg a env in constr:(GO x)
  | dzero Sg => constr:(GZ)
  | _ => match g_find e env with Some ?n => constr:(GV n) end
  end.
Ltac dgroup L :=
  match type of L with
  | group_laws ?Sg =>
    match goal with
    | |- ?a = ?b =>
      let env0 := g_atoms Sg a (@nil (D Sg)) in
      let env := g_atoms Sg b env0 in
      let x := g_reify Sg a env in
      let y := g_reify Sg b env in
      apply (gsolve Sg L env x y); vm_compute; reflexivity
    end
  end.
(** From an equation: move everything to one side. *)
Lemma d_move S (L : group_laws S) a b c d : a = b -> dsub S c a = dsub S d b -> c = d.
Proof.
  intros -> H. transitivity (dadd S (dsub S c b) b); [dgroup L|]. rewrite H. dgroup L.
Qed.
