(** The basis functions of one level. *)
From Coq Require Import List Reals ZArith Lra Lia Arith.
From Coquelicot Require Import Coquelicot.
From Verif Require Import Model.Base Model.Vectors Model.SparseGrid Model.BasisLevel Spec.GLMMSpec Spec.MatrixSpec
  Spec.SplineSpec Spec.NodalSpec Proofs.ListLemmas Proofs.SumLemmas Proofs.GLMMLemmas Proofs.VectorLemmas
  Proofs.KnotMain Proofs.SplineLemmas Proofs.SplineMirror Proofs.FamilyLemmas.
Import ListNotations.
Local Open Scope R_scope.

(** * Inverses of the matrices of powers *)
Definition lag3 (a b c : R) : rmat :=
  [[b * c / ((a - b) * (a - c)); a * c / ((b - a) * (b - c)); a * b / ((c - a) * (c - b))];
   [- (b + c) / ((a - b) * (a - c)); - (a + c) / ((b - a) * (b - c)); - (a + b) / ((c - a) * (c - b))];
   [/ ((a - b) * (a - c)); / ((b - a) * (b - c)); / ((c - a) * (c - b))]].
Lemma lag3_inverse k : k 0%nat < k 1%nat < k 2%nat -> are_inverse 3 (powers 3 k) (lag3 (k 0%nat) (k 1%nat) (k 2%nat)).
Proof.
  intros H. split; [|split].
  - split; [reflexivity|]. intros i Hi. destruct i as [|[|[|]]]; try lia; reflexivity.
  - split; [reflexivity|]. intros i Hi. destruct i as [|[|[|]]]; try lia; reflexivity.
  - intros i j Hi Hj. destruct i as [|[|[|]]]; try lia; destruct j as [|[|[|]]]; try lia; cbn; split; field; lra.
Qed.
Definition lag4 (a b c d : R) : rmat :=
  let A := (a - b) * (a - c) * (a - d) in let B := (b - a) * (b - c) * (b - d) in
  let C := (c - a) * (c - b) * (c - d) in let D := (d - a) * (d - b) * (d - c) in
  [[- (b * c * d) / A; - (a * c * d) / B; - (a * b * d) / C; - (a * b * c) / D];
   [(b * c + b * d + c * d) / A; (a * c + a * d + c * d) / B; (a * b + a * d + b * d) / C; (a * b + a * c + b * c) / D];
   [- (b + c + d) / A; - (a + c + d) / B; - (a + b + d) / C; - (a + b + c) / D];
   [/ A; / B; / C; / D]].
Lemma lag4_inverse k : k 0%nat < k 1%nat < k 2%nat -> k 2%nat < k 3%nat ->
  are_inverse 4 (powers 4 k) (lag4 (k 0%nat) (k 1%nat) (k 2%nat) (k 3%nat)).
Proof.
  intros H H'. split; [|split].
  - split; [reflexivity|]. intros i Hi. destruct i as [|[|[|[|]]]]; try lia; reflexivity.
  - split; [reflexivity|]. intros i Hi. destruct i as [|[|[|[|]]]]; try lia; reflexivity.
  - intros i j Hi Hj. destruct i as [|[|[|[|]]]]; try lia; destruct j as [|[|[|[|]]]]; try lia; cbn; split; field; lra.
Qed.

Lemma nth_firstn_lt {A} (x : list A) m i d : (i < m)%nat -> nth i (firstn m x) d = nth i x d.
Proof. revert x i. induction m; intros x i H; [lia|]. destruct x; [now destruct i|]. destruct i; simpl; auto. apply IHm. lia. Qed.
Lemma nth_skipn_add {A} (x : list A) m i d : nth i (skipn m x) d = nth (m + i) x d.
Proof. revert x. induction m; intros x; [reflexivity|]. destruct x; simpl; auto. now destruct i. Qed.

(** * Symmetry *)
Lemma truncate_opp v : truncate (- v) = (- truncate v)%Z.
Proof.
  unfold truncate. destruct (Rle_dec 0 (- v)) as [H|H]; destruct (Rle_dec 0 v) as [K|K].
  - assert (v = 0) by lra. subst v. rewrite Ropp_0. replace 0 with (INR 0) by reflexivity. rewrite Int_part_INR. reflexivity.
  - now rewrite Z.opp_involutive.
  - now rewrite Ropp_involutive.
  - lra.
Qed.
Lemma lag4_sym a b c d : a < b -> b < c -> c < d -> forall i, (i < 4)%nat ->
  entry (lag4 (- d) (- c) (- b) (- a)) 3 i = - entry (lag4 a b c d) 3 (3 - i).
Proof. intros H1 H2 H3 i Hi. destruct i as [|[|[|[|]]]]; try lia; cbn; field; lra. Qed.

(** * Glueing *)
Lemma derive_glue (f p r : R -> R) (x a : R) (e : R) : 0 < e ->
  (forall y, x - e < y -> y < x -> f y = p y) -> (forall y, x <= y -> y < x + e -> f y = r y) ->
  is_derive p x a -> is_derive r x a -> p x = r x -> is_derive f x a.
Proof.
  intros He Hp Hr Dp Dr E. apply is_derive_Reals. apply is_derive_Reals in Dp. apply is_derive_Reals in Dr.
  intros eps Heps. destruct (Dp eps Heps) as [d1 H1]. destruct (Dr eps Heps) as [d2 H2].
  assert (Hd : 0 < Rmin e (Rmin d1 d2)).
  { apply Rmin_glb_lt; auto. apply Rmin_glb_lt; [apply cond_pos|apply cond_pos]. }
  exists (mkposreal _ Hd). intros t Ht Hlt. cbn in Hlt.
  pose proof (Rmin_l e (Rmin d1 d2)). pose proof (Rmin_r e (Rmin d1 d2)). pose proof (Rmin_l d1 d2). pose proof (Rmin_r d1 d2).
  assert (E0 : f x = r x) by (apply Hr; lra).
  destruct (Rlt_dec t 0) as [N|N].
  - rewrite (Hp (x + t)), E0, <- E; [apply H1; auto; lra| |lra]. rewrite Rabs_left in Hlt by lra. lra.
  - rewrite (Hr (x + t)), E0; [apply H2; auto; lra|lra|]. rewrite Rabs_pos_eq in Hlt by lra. lra.
Qed.

Section Level.
Variable q : R -> R.
Hypothesis NL : normal_like q.
Variable L : nat.
Hypothesis HL : (1 <= L)%nat.
Hypothesis Fit : knots_fit q L.
Variable l : nat.
Hypothesis Hl : (l <= L)%nat.
Notation n := (numKnots l).
Notation knot := (kn q L l).
Notation count := (count q L l).
Notation bw := (bandwidth q L).

(** The knots lie symmetrically about 0. *)
Lemma kn_sym i : (i < n)%nat -> knot (n - 1 - i) = - knot i.
Proof.
  intros Hi. unfold kn, kd, kid, place_of.
  assert (E : prob l (n - 1 - i) = 1 - prob l i).
  { unfold prob. replace (INR (S (n - 1 - i))) with (2 ^ (l + 1) - INR (S i)).
    - rewrite Rmult_minus_distr_r. f_equal. unfold eps. apply Rinv_r. apply pow_nonzero. lra.
    - rewrite <- numKnots_INR. rewrite !S_INR, !minus_INR by lia. simpl (INR 1). ring. }
  pose proof (prob_range L HL l Hl i Hi) as P. pose proof (eps_pos L) as Ep.
  rewrite E, (nl_odd q NL) by lra. replace (10 * - q (prob l i) / unit_q q L) with (- (10 * q (prob l i) / unit_q q L)) by (unfold Rdiv; ring).
  rewrite truncate_opp, opp_IZR. ring.
Qed.

(** A family of functions that agree at the knots between them. *)
Lemma glue_count (F F1 : nat -> R -> R) : (forall i (x : R), is_derive (F i) x (F1 i x)) ->
  (forall i, (i < n)%nat -> F i (knot i) = F (S i) (knot i)) ->
  (forall i, (i < n)%nat -> F1 i (knot i) = F1 (S i) (knot i)) ->
  forall x : R, is_derive (fun y => F (count y) y) x (F1 (count x) x).
Proof.
  intros D E E1 x. destruct (count_interval q NL L HL l Hl x) as (C1 & C2 & C3). set (c := count x) in *.
  (* to the right the count stays the same *)
  assert (HR : exists e, 0 < e /\ forall y, x <= y -> y < x + e -> count y = c).
  { destruct (Nat.eq_dec c n) as [Ec|Nc].
    - exists 1. split; [lra|]. intros y Hy _. apply (count_is q NL L HL l Hl); auto; [|lia]. intros Hc. specialize (C2 Hc). lra.
    - specialize (C3 ltac:(lia)). exists (knot c - x). split; [lra|]. intros y Hy Hlt.
      apply (count_is q NL L HL l Hl); auto; [|intros; lra]. intros Hc. specialize (C2 Hc). lra. }
  destruct HR as (e & He & HR).
  assert (HLft : (exists e', 0 < e' /\ forall y, x - e' < y -> y < x -> count y = c) \/ ((0 < c)%nat /\ x = knot (c - 1))).
  { destruct (Nat.eq_dec c 0) as [Ec|Nc].
    - left. exists 1. split; [lra|]. intros y _ Hy. apply (count_is q NL L HL l Hl); auto; [lia|]. intros Hc. specialize (C3 Hc). lra.
    - specialize (C2 ltac:(lia)). destruct (Req_dec (knot (c - 1)) x) as [Ex|Nx]; [right; split; [lia|auto]|].
      left. exists (x - knot (c - 1)). split; [lra|]. intros y Hy Hlt.
      apply (count_is q NL L HL l Hl); auto; [intros; lra|]. intros Hc. specialize (C3 Hc). lra. }
  destruct HLft as [(e' & He' & HLft)|(Hc & Hx)].
  - apply (derive_glue _ (F c) (F c) x _ (Rmin e e')).
    + now apply Rmin_glb_lt.
    + intros y H1 H2. pose proof (Rmin_r e e'). rewrite HLft; auto; lra.
    + intros y H1 H2. pose proof (Rmin_l e e'). rewrite HR; auto; lra.
    + apply D. + apply D. + reflexivity.
  - assert (HL2 : exists e', 0 < e' /\ forall y, x - e' < y -> y < x -> count y = (c - 1)%nat).
    { destruct (Nat.eq_dec c 1) as [Ec|Nc].
      - exists 1. split; [lra|]. intros y _ Hy. apply (count_is q NL L HL l Hl); [lia|lia|]. intros _. rewrite <- Hx. lra.
      - assert (K : knot (c - 2) < knot (c - 1)) by (apply (kn_lt q NL L HL l Hl); lia).
        exists (x - knot (c - 2)). split; [lra|]. intros y Hy Hlt.
        apply (count_is q NL L HL l Hl); [lia| |intros _; lra]. intros _. replace (c - 1 - 1)%nat with (c - 2)%nat by lia. lra. }
    destruct HL2 as (e' & He' & HL2).
    pose proof (E (c - 1)%nat ltac:(lia)) as G. pose proof (E1 (c - 1)%nat ltac:(lia)) as G1. rewrite <- Hx in G, G1.
    replace (S (c - 1)) with c in G, G1 by lia.
    apply (derive_glue _ (F (c - 1)%nat) (F c) x _ (Rmin e e')).
    + now apply Rmin_glb_lt.
    + intros y H1 H2. pose proof (Rmin_r e e'). rewrite HL2; auto; lra.
    + intros y H1 H2. pose proof (Rmin_l e e'). rewrite HR; auto; lra.
    + rewrite <- G1. apply D. + apply D. + exact G.
Qed.

(** The polynomials of interval [i], by their four coefficients. *)
Definition cubic (c : nat -> R) (x : R) : R := c 0%nat + c 1%nat * x + c 2%nat * x ^ 2 + c 3%nat * x ^ 3.
Definition cubic1 (c : nat -> R) (x : R) : R := c 1%nat + 2 * c 2%nat * x + 3 * c 3%nat * x ^ 2.
Definition cubic2 (c : nat -> R) (x : R) : R := 2 * c 2%nat + 6 * c 3%nat * x.
Lemma cubic_derive c (x : R) : is_derive (cubic c) x (cubic1 c x).
Proof. unfold cubic, cubic1. auto_derive; [auto|]. ring. Qed.
Lemma cubic1_derive c (x : R) : is_derive (cubic1 c) x (cubic2 c x).
Proof. unfold cubic1, cubic2. auto_derive; [auto|]. ring. Qed.

(** What the constructor puts into the table: [cf pos i j] is the coefficient of x^j on
    interval i of the function of position pos. *)
Record table (cf : nat -> nat -> nat -> R) : Prop := {
  t_first : forall pos j, cf pos 0%nat j = cf pos 1%nat j;
  t_value : forall pos i, (pos < 2 ^ l)%nat -> (i < n)%nat -> cubic (cf pos (S i)) (knot i) = unit_entry (2 * pos) i;
  t_glue : forall pos i, (pos < 2 ^ l)%nat -> (i < n)%nat -> cubic (cf pos i) (knot i) = cubic (cf pos (S i)) (knot i);
  t_glue1 : forall pos i, (pos < 2 ^ l)%nat -> (i < n)%nat -> cubic1 (cf pos i) (knot i) = cubic1 (cf pos (S i)) (knot i);
  t_glue2 : forall pos i, (pos < 2 ^ l)%nat -> (i < n)%nat -> cubic2 (cf pos i) (knot i) = cubic2 (cf pos (S i)) (knot i);
  t_mirror : forall pos i j, (pos < 2 ^ l)%nat -> (i <= n)%nat -> (j < 4)%nat -> cf (2 ^ l - 1 - pos)%nat (n - i)%nat j = (-1) ^ j * cf pos i j
}.
Definition tabulated (cf : nat -> nat -> nat -> R) (m : rmat) : Prop :=
  forall i j pos, (i <= n)%nat -> (j < 4)%nat -> (pos < 2 ^ l)%nat -> mat_get m (4 * i + j) pos = Ok (cf pos i j).

Variable inverse : rmat -> rmat.
Variable solve : rmat -> rmat -> rmat.
Hypothesis Inv3 : forall A, inverts inverse 3 A.
Hypothesis Inv4 : forall A, inverts inverse 4 A.
Hypothesis Sol : solves_systems solve.

Definition kt : list R := map knot (seq 0 n).
Lemma kt_length : length kt = n.
Proof. unfold kt. now rewrite map_length, seq_length. Qed.
Lemma kt_nth i : (i < n)%nat -> nth i kt 0 = knot i.
Proof.
  intros Hi. unfold kt. rewrite nth_indep with (d' := knot 0) by (rewrite map_length, seq_length; auto).
  rewrite map_nth, seq_nth by auto. reflexivity.
Qed.
Lemma n_two_pow : (n = 2 * 2 ^ l - 1)%nat.
Proof. unfold numKnots. rewrite Nat.add_1_r. reflexivity. Qed.

Lemma mat_get_entry r c m i j : shape r c m -> (i < r)%nat -> (j < c)%nat -> mat_get m i j = Ok (entry m i j).
Proof.
  intros [S1 S2] Hi Hj. unfold mat_get, vec_get, entry. rewrite (nth_error_nth' m []) by lia. cbn [bind].
  rewrite (nth_error_nth' _ 0); auto. now rewrite S2.
Qed.

(** All coefficients, before the columns are selected. *)
Lemma all_ok : exists all cf, coefficients_all inverse solve l kt = Ok all /\
  shape (4 * (n + 1)) n all /\
  (forall i j pos, (i <= n)%nat -> (j < 4)%nat -> (pos < 2 ^ l)%nat -> entry all (4 * i + j) (2 * pos) = cf pos i j) /\
  ((0 < l)%nat -> table cf).
Proof.
  unfold coefficients_all. pose proof (pow2_ge1 l) as Hp. pose proof n_two_pow as En.
  assert (Kinc : forall i, (S i < n)%nat -> knot i < knot (S i)) by (intros; apply (kn_lt q NL L HL l Hl); lia).
  destruct (Nat.ltb_spec 1 l) as [H1|H1].
  - (* cubic splines *)
    assert (H4 : (4 <= 2 ^ l)%nat) by (change 4%nat with (2 ^ 2)%nat; apply Nat.pow_le_mono_r; lia).
    assert (Hn : (4 <= n)%nat) by lia.
    set (k := fun i => nth i kt 0). assert (Ek : forall i, (i < n)%nat -> k i = knot i) by (intros; now apply kt_nth).
    set (V := lag4 (k 0%nat) (k 1%nat) (k 2%nat) (k 3%nat)).
    set (k' := fun i => k (n - 4 + i)%nat). set (V' := lag4 (k' 0%nat) (k' 1%nat) (k' 2%nat) (k' 3%nat)).
    assert (kI : forall i, (i < n - 1)%nat -> k i < k (i + 1)%nat).
    { intros i Hi. rewrite !Ek by lia. rewrite Nat.add_1_r. apply Kinc. lia. }
    assert (EV : inverse (powers 4 k) = V).
    { apply Inv4. apply lag4_inverse; [split|]; [apply (kI 0%nat)|apply (kI 1%nat)|apply (kI 2%nat)]; lia. }
    assert (EV' : inverse (powers 4 k') = V').
    { apply Inv4. apply lag4_inverse; unfold k'.
      - split; [pose proof (kI (n - 4 + 0)%nat ltac:(lia)) as K|pose proof (kI (n - 4 + 1)%nat ltac:(lia)) as K];
          rewrite <- Nat.add_assoc in K; exact K.
      - pose proof (kI (n - 4 + 2)%nat ltac:(lia)) as K; rewrite <- Nat.add_assoc in K; exact K. }
    set (u := fun i => entry V 3 i). set (w := fun i => entry V' 3 i).
    destruct (A_ok n k Hn) as (A & EA & SA & A_in & A_out).
    destruct (B_ok n Hn u w) as (B & EB & SB & B_in & B_out).
    assert (Es : spline_system inverse kt = Ok (A, B)).
    { unfold spline_system. rewrite kt_length. fold k. rewrite EA. cbn [bind]. change (powers 4 (fun i => nth (n - 4 + i) kt 0)) with (powers 4 k'). cbv zeta. rewrite EV. change (inverse (powers 4 (fun i => nth (n - 4 + i)%nat kt 0))) with (inverse (powers 4 k')). rewrite EV'.
      assert (Ee : ends_B n V V' = Ok (ends_list n u w)).
      { unfold ends_B. rewrite (mapM_ok _ (fun i => [((4 * n - 6, i)%nat, 6 * u i); ((4 * n - 5, n - 4 + i)%nat, 6 * w i)])).
        - cbn [bind]. unfold ends_list. now rewrite flat_map_concat_map.
        - intros i Hi. apply in_seq in Hi.
          assert (ShV : forall a b c d, shape 4 4 (lag4 a b c d)).
          { intros. split; [reflexivity|]. intros [|[|[|[|]]]] ?; try lia; reflexivity. }
          rewrite !(mat_get_entry 4 4) by (try apply ShV; lia). reflexivity. }
      rewrite Ee. cbn [bind]. rewrite EB. reflexivity. }
    rewrite Es. cbn [bind fst snd]. set (X := solve A B).
    assert (HX : is_solution (4 * (n - 1)) n A B X).
    { apply Sol; [exact SA|apply SB|apply SB|].
      set (Xc := fun c => spline_coef n k (unit_entry c) (end_a u c) (end_b n w c)).
      exists (map (fun r => map (fun c => Xc c r) (seq 0 n)) (seq 0 (4 * (n - 1)))).
      assert (Sh : shape (4 * (n - 1)) n (map (fun r => map (fun c => Xc c r) (seq 0 n)) (seq 0 (4 * (n - 1))))).
      { split; [now rewrite map_length, seq_length|]. intros i Hi.
        rewrite nth_indep with (d' := map (fun c => Xc c 0%nat) (seq 0 n)) by (rewrite map_length, seq_length; auto).
        rewrite (map_nth (fun r => map (fun c => Xc c r) (seq 0 n))). now rewrite map_length, seq_length. }
      apply (spline_solution n k Hn u w A B A_in A_out B_in B_out); auto.
      intros c Hc. 
      assert (Eq : forall r, (r < 4 * (n - 1))%nat ->
         entry (map (fun r => map (fun c => Xc c r) (seq 0 n)) (seq 0 (4 * (n - 1)))) r c = Xc c r).
      { intros r Hr. unfold entry.
        rewrite nth_indep with (d' := map (fun c => Xc c 0%nat) (seq 0 n)) by (rewrite map_length, seq_length; auto).
        rewrite (map_nth (fun r => map (fun c => Xc c r) (seq 0 n))), seq_nth by auto. cbn [plus].
        rewrite nth_indep with (d' := Xc 0%nat r) by (rewrite map_length, seq_length; auto).
        rewrite (map_nth (fun c => Xc c r)), seq_nth by auto. reflexivity. }
      pose proof (spline_exists n k Hn kI (unit_entry c) (end_a u c) (end_b n w c)) as SP.
      fold (Xc c) in SP. destruct SP as [a1 a2 a3 a4 a5 a6]. constructor.
      - intros i Hi. unfold piece. rewrite !Eq by lia. now apply a1.
      - intros i Hi. unfold piece. rewrite !Eq by lia. now apply a2.
      - intros i Hi. unfold piece1. rewrite !Eq by lia. now apply a3.
      - intros i Hi. unfold piece2. rewrite !Eq by lia. now apply a4.
      - rewrite Eq by lia. exact a5.
      - rewrite Eq by lia. exact a6. }
    assert (SX : length X = (4 * (n - 1))%nat) by apply HX.
    assert (SXr : forall i, (i < 4 * (n - 1))%nat -> length (nth i X []) = n) by apply HX.
    set (pc := fun i => Nat.min (i - 1) (n - 2)).
    assert (Row : forall i j, (i <= n)%nat -> (j < 4)%nat ->
      nth (4 * i + j) (firstn 4 X ++ X ++ skipn (length X - 4) X) [] = nth (4 * pc i + j) X []).
    { intros i j Hi Hj. unfold pc. destruct (Nat.eq_dec i 0) as [->|N0].
      - rewrite app_nth1 by (rewrite firstn_length; lia). rewrite nth_firstn_lt by lia. reflexivity.
      - rewrite app_nth2 by (rewrite firstn_length; lia). rewrite firstn_length. 
        destruct (Nat.eq_dec i n) as [->|Nn].
        + rewrite app_nth2 by lia. rewrite nth_skipn_add. f_equal. lia.
        + rewrite app_nth1 by lia. f_equal. lia. }
    eexists. exists (fun pos i j => entry X (4 * pc i + j) (2 * pos)). split; [reflexivity|]. split; [|split].
    + split.
      * rewrite !app_length, firstn_length, skipn_length. lia.
      * intros r Hr. rewrite (Nat.div_mod r 4) by lia. rewrite Row.
        -- apply SXr. pose proof (Nat.mod_upper_bound r 4). unfold pc. lia.
        -- apply Nat.lt_succ_r. replace (S n) with (n + 1)%nat by lia. apply Nat.div_lt_upper_bound; lia.
        -- apply Nat.mod_upper_bound. lia.
    + intros i j pos Hi Hj Hpos. unfold entry. rewrite Row by auto. reflexivity.
    + intros _. 
      assert (SP : forall pos, (pos < 2 ^ l)%nat -> spline n k (fun r => entry X r (2 * pos)) (unit_entry (2 * pos)) (end_a u (2 * pos)) (end_b n w (2 * pos))).
      { intros pos Hpos. apply (solution_spline n k Hn u w A B A_in A_out B_in B_out); auto. lia. }
      assert (Cub : forall pos i x, cubic (fun j => entry X (4 * pc i + j) (2 * pos)) x = piece (fun r => entry X r (2 * pos)) (pc i) x).
      { intros. unfold cubic, piece. now rewrite Nat.add_0_r. }
      assert (Mid : forall i, (i < n)%nat -> (i = 0 \/ i = n - 1 \/ (1 <= i < n - 1 /\ pc i = i - 1 /\ pc (S i) = i))%nat).
      { intros i Hi. unfold pc. lia. }
      constructor.
      * intros pos j. f_equal.
      * intros pos i Hpos Hi. rewrite Cub, <- Ek by auto. destruct (SP pos Hpos).
        destruct (Nat.eq_dec i (n - 1)) as [->|].
        -- replace (pc (S (n - 1)%nat)) with (n - 2)%nat by (unfold pc; lia). replace (n - 1)%nat with (n - 2 + 1)%nat by lia. apply s_right. lia.
        -- replace (pc (S i)) with i by (unfold pc; lia). apply s_left. lia.
      * intros pos i Hpos Hi. rewrite !Cub. rewrite <- Ek by auto. destruct (SP pos Hpos).
        destruct (Mid i Hi) as [->|[->|(Hm & -> & ->)]].
        -- reflexivity.
        -- replace (pc (S (n - 1)%nat)) with (pc (n - 1)%nat) by (unfold pc; lia). reflexivity.
        -- rewrite s_left by lia. replace i with (i - 1 + 1)%nat at 2 3 by lia. apply s_right. lia.
      * intros pos i Hpos Hi. rewrite <- Ek by auto. destruct (SP pos Hpos).
        destruct (Mid i Hi) as [->|[->|(Hm & E1 & E2)]].
        -- reflexivity.
        -- replace (pc (S (n - 1)%nat)) with (pc (n - 1)%nat) by (unfold pc; lia). reflexivity.
        -- rewrite E1, E2. exact (s_first i Hm).
      * intros pos i Hpos Hi. rewrite <- Ek by auto. destruct (SP pos Hpos).
        destruct (Mid i Hi) as [->|[->|(Hm & E1 & E2)]].
        -- reflexivity.
        -- replace (pc (S (n - 1)%nat)) with (pc (n - 1)%nat) by (unfold pc; lia). reflexivity.
        -- rewrite E1, E2. exact (s_second i Hm).
      * intros pos i j Hpos Hi Hj.
        assert (Sy : forall i, (i < n)%nat -> k (n - 1 - i)%nat = - k i).
        { intros i' Hi'. rewrite !Ek by lia. now apply kn_sym. }
        assert (UW : forall i, (i < 4)%nat -> w i = - u (3 - i)%nat).
        { intros i' Hi'. unfold w, u, V', V, k'.
          assert (Ks : forall a c, (a + c = 3)%nat -> k (n - 4 + a)%nat = - k c).
          { intros a c Hac. rewrite <- (Sy c) by lia. f_equal. lia. }
          rewrite (Ks 0 3)%nat, (Ks 1 2)%nat, (Ks 2 1)%nat, (Ks 3 0)%nat by reflexivity.
          apply lag4_sym; auto; [apply (kI 0%nat)|apply (kI 1%nat)|apply (kI 2%nat)]; lia. }
        assert (Ends : forall c, (c < n)%nat -> end_b n w c = - end_a u (n - 1 - c)).
        { intros c Hc. unfold end_a, end_b. destruct (Nat.leb_spec (n - 4) c); destruct (Nat.ltb_spec (n - 1 - c) 4); try lia; [|lra].
          rewrite UW by lia. replace (3 - (c - (n - 4)))%nat with (n - 1 - c)%nat by lia. ring. }
        assert (Ep : (2 * (2 ^ l - 1 - pos) = n - 1 - 2 * pos)%nat) by lia.
        pose proof (SP (2 ^ l - 1 - pos)%nat ltac:(lia)) as S1. rewrite Ep in S1.
        pose proof (spline_mirror n k Hn Sy _ _ _ _ S1) as S2.
        assert (S3 : spline n k (mirror_coef n (fun r => entry X r (n - 1 - 2 * pos))) (unit_entry (2 * pos)) (end_a u (2 * pos)) (end_b n w (2 * pos))).
        { replace (end_a u (2 * pos)) with (- end_b n w (n - 1 - 2 * pos)).
          2:{ rewrite Ends by lia. replace (n - 1 - (n - 1 - 2 * pos))%nat with (2 * pos)%nat by lia. ring. }
          rewrite (Ends (2 * pos)%nat) by lia. destruct S2 as [c1 c2 c3 c4 c5 c6].
          assert (Un : forall i', (i' < n)%nat -> unit_entry (n - 1 - 2 * pos) (n - 1 - i') = unit_entry (2 * pos) i').
          { intros i' Hi'. unfold unit_entry. destruct (Nat.eqb_spec (n - 1 - 2 * pos) (n - 1 - i')); destruct (Nat.eqb_spec (2 * pos) i'); lia || reflexivity. }
          constructor; auto.
          - intros i' Hi'. rewrite <- Un by lia. now apply c1.
          - intros i' Hi'. rewrite <- Un by lia. now apply c2. }
        pose proof (spline_unique n k Hn kI _ _ _ _ _ (SP pos Hpos) S3 (4 * pc i + j)%nat ltac:(unfold pc; lia)) as U.
        cbn beta in U. rewrite U, mirror_at by auto. rewrite Ep. replace (n - 2 - pc i)%nat with (pc (n - i)%nat) by (unfold pc; lia).
        rewrite <- Rmult_assoc, <- Rpow_mult_distr. replace (-1 * -1) with 1 by ring. rewrite pow1. ring.
  - assert (Rep : forall (rows : rmat) N i j, length rows = 4%nat -> (i < N)%nat -> (j < 4)%nat ->
       nth (4 * i + j) (concat (repeat rows N)) [] = nth j rows []).
    { intros rows N i j Hr. revert i. induction N as [|N IH]; intros i Hi Hj; [lia|]. cbn [repeat concat].
      destruct i as [|i].
      - rewrite app_nth1 by lia. reflexivity.
      - rewrite app_nth2 by lia. rewrite Hr. replace (4 * S i + j - 4)%nat with (4 * i + j)%nat by lia. apply IH; lia. }
    assert (RepL : forall (rows : rmat) N, length rows = 4%nat -> length (concat (repeat rows N)) = (4 * N)%nat).
    { intros rows N Hr. induction N; [reflexivity|]. cbn [repeat concat]. rewrite app_length, IHN. lia. }
    assert (RepS : forall (rows : rmat) N c, length rows = 4%nat -> (forall j, (j < 4)%nat -> length (nth j rows []) = c) ->
       shape (4 * N) c (concat (repeat rows N))).
    { intros rows N c Hr Hc. split; [now apply RepL|]. intros r Hr2. rewrite (Nat.div_mod r 4) by lia. rewrite Rep; auto.
      - apply Hc. apply Nat.mod_upper_bound. lia.
      - apply Nat.div_lt_upper_bound; lia.
      - apply Nat.mod_upper_bound. lia. }
    destruct (Nat.eqb_spec l 0) as [E0|N0].
    + (* constant *)
      assert (Hn1 : n = 1%nat) by (rewrite En, E0; reflexivity).
      eexists. exists (fun _ _ j => nth 0 (nth j [[1]; [0]; [0]; [0]] []) 0). split; [reflexivity|]. rewrite kt_length. split; [|split].
      * rewrite Hn1 at 2. apply RepS; [reflexivity|]. intros [|[|[|[|]]]] ?; try lia; reflexivity.
      * intros i j pos Hi Hj Hpos. unfold entry. rewrite Rep by (auto; lia). rewrite E0 in Hpos. cbn in Hpos.
        replace (2 * pos)%nat with 0%nat by lia. reflexivity.
      * lia.
    + (* quadratic *)
      assert (E1 : l = 1%nat) by lia. assert (Hn3 : n = 3%nat) by (rewrite En, E1; reflexivity).
      set (k := fun i => nth i kt 0). assert (Ek : forall i, (i < n)%nat -> k i = knot i) by (intros; now apply kt_nth).
      set (V := lag3 (k 0%nat) (k 1%nat) (k 2%nat)).
      assert (K01 : k 0%nat < k 1%nat) by (rewrite !Ek by lia; apply Kinc; lia).
      assert (K12 : k 1%nat < k 2%nat) by (rewrite !Ek by lia; apply Kinc; lia).
      assert (EI : are_inverse 3 (powers 3 k) V) by (apply lag3_inverse; auto).
      assert (EV : inverse (powers 3 k) = V) by (apply Inv3; auto).
      unfold quadratic_rows. fold k. rewrite EV. rewrite kt_length, Hn3. cbn [repeat].
      set (rows := V ++ [[0; 0; 0]]).
      assert (Er : bind (mapM (fun j => vec_get V j) (seq 0 3)) (fun rows0 => Ok (rows0 ++ [[0; 0; 0]])) = Ok rows) by reflexivity.
      rewrite Er. cbn [bind].
      eexists. exists (fun pos _ j => entry rows j (2 * pos)). split; [reflexivity|]. split; [|split].
      * apply (RepS rows (3 + 1)%nat 3%nat); [reflexivity|]. intros [|[|[|[|]]]] ?; try lia; reflexivity.
      * intros i j pos Hi Hj Hpos. unfold entry. rewrite Rep by (auto; lia). reflexivity.
      * intros _. constructor; auto.
        2:{ intros pos i j Hpos _ Hj. assert (K2 : k 2%nat = - k 0%nat).
            { rewrite !Ek by lia. pose proof (kn_sym 0 ltac:(lia)) as Ks. rewrite Hn3 in Ks. exact Ks. }
            assert (K1 : k 1%nat = 0).
            { rewrite !Ek by lia. pose proof (kn_sym 1 ltac:(lia)) as Ks. rewrite Hn3 in Ks. change (3 - 1 - 1)%nat with 1%nat in Ks. lra. }
            rewrite E1 in Hpos |- *. cbn in Hpos. unfold rows, V. rewrite K2, K1.
            assert (k 0%nat <> 0) by lra.
            destruct pos as [|[|]]; try lia; destruct j as [|[|[|[|]]]]; try lia; cbn; field; lra. }
        intros pos i Hpos Hi. rewrite <- Ek by auto. destruct EI as (_ & _ & EI). 
        assert (Hp2 : (2 * pos < 3)%nat) by (rewrite E1 in Hpos; cbn in Hpos; lia).
        destruct (EI i (2 * pos)%nat ltac:(lia) Hp2) as [EI1 _].
        replace (unit_entry (2 * pos) i) with (unit_entry i (2 * pos)).
        2:{ unfold unit_entry. destruct (Nat.eqb_spec i (2 * pos)); destruct (Nat.eqb_spec (2 * pos) i); congruence || reflexivity. }
        rewrite <- EI1.
        assert (Epow : forall j, (j < 3)%nat -> entry (powers 3 k) i j = k i ^ j).
        { intros j Hj. destruct i as [|[|[|]]]; try lia; destruct j as [|[|[|]]]; try lia; reflexivity. }
        assert (Erow : forall j c, (j < 3)%nat -> entry rows j c = entry V j c).
        { intros [|[|[|]]] c Hj; try lia; reflexivity. }
        assert (Er3 : entry rows 3 (2 * pos) = 0).
        { change (entry rows 3 (2 * pos)) with (nth (2 * pos) [0; 0; 0] 0). destruct (2 * pos)%nat as [|[|[|]]]; try lia; reflexivity. }
        unfold cubic. rewrite Er3, !Erow by lia. unfold row_col. rewrite !sumR_last, sumR_0, !Epow by lia. ring.
Qed.

Lemma spline_ok : exists m cf, splineCoefficients q inverse solve l L = Ok m /\ tabulated cf m /\ ((0 < l)%nat -> table cf).
Proof.
  unfold splineCoefficients. rewrite (knotsTotal_ok q NL L HL Fit l Hl). cbn [bind]. fold kt.
  destruct all_ok as (all & cf & E & Sh & V & T). rewrite E. cbn [bind].
  pose proof n_two_pow as En. pose proof (pow2_ge1 l).
  rewrite (mapM_ok _ (fun r => map (fun i => entry all r (2 * i)) (seq 0 (2 ^ l)))).
  - eexists. exists cf. split; [reflexivity|]. split; auto. intros i j pos Hi Hj Hpos.
    assert (Hr : (4 * i + j < 4 * 2 ^ (l + 1))%nat) by (rewrite Nat.add_1_r; cbn [Nat.pow]; lia).
    rewrite (mat_get_entry (4 * 2 ^ (l + 1)) (2 ^ l)); auto.
    + f_equal. rewrite <- V by auto. unfold entry at 1.
      rewrite nth_indep with (d' := map (fun i => entry all 0 (2 * i)) (seq 0 (2 ^ l))) by (rewrite map_length, seq_length; auto).
      rewrite (map_nth (fun r => map (fun i => entry all r (2 * i)) (seq 0 (2 ^ l)))), seq_nth by auto. cbn [plus].
      rewrite nth_indep with (d' := entry all (4 * i + j) (2 * 0)) by (rewrite map_length, seq_length; auto).
      rewrite (map_nth (fun p => entry all (4 * i + j) (2 * p))), seq_nth by auto. reflexivity.
    + split; [now rewrite map_length, seq_length|]. intros r Hr2.
      rewrite nth_indep with (d' := map (fun i => entry all 0 (2 * i)) (seq 0 (2 ^ l))) by (rewrite map_length, seq_length; auto).
      rewrite (map_nth (fun r => map (fun i => entry all r (2 * i)) (seq 0 (2 ^ l)))), map_length, seq_length. reflexivity.
  - intros r Hr. apply in_seq in Hr. apply mapM_ok. intros i Hi. apply in_seq in Hi.
    apply (mat_get_entry (4 * (n + 1)) n); auto; [|lia]. rewrite Nat.add_1_r in Hr. cbn [Nat.pow] in Hr. lia.
Qed.
End Level.
