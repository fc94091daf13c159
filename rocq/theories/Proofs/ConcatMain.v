(** Putting model frames together. *)
From Coq Require Import List Reals ZArith Bool Arith Sorted Lia Lra.
From Verif Require Import Model.Base Model.Family Model.GLMM Model.SplitFrame Model.Frames Spec.Numbers Spec.GLMMSpec Spec.SplitSpec Spec.FramesSpec
  Proofs.ListLemmas Proofs.GLMMLemmas Proofs.GLMMMain Proofs.SplitLemmas Proofs.SplitMain.
Import ListNotations.
Local Open Scope R_scope.

Lemma bindOk {A B} (m : outcome A) (f : A -> outcome B) r : bind m f = Ok r -> exists a, m = Ok a /\ f a = Ok r.
Proof. destruct m as [a|e| |]; cbn [bind]; intros H; try discriminate H. exists a. now split. Qed.

Lemma nsum_one (x : R) : nsum Rnum [x] = x.
Proof. unfold nsum. cbn. lra. Qed.

(** A column from its entries. *)
Lemma column_again (c : list (nat * R)) : forall k s, StronglySorted lt (map fst c) -> (forall e, In e c -> (s <= fst e < s + k)%nat) ->
  concat (map (fun i => match filter (fun e => Nat.eqb (fst e) i) c with [] => [] | es => [(i, nsum Rnum (map snd es))] end) (seq s k)) = c.
Proof.
  intros k. revert c. induction k as [|k IH]; intros c s S B.
  - cbn. destruct c as [|e c]; [reflexivity|]. specialize (B e (or_introl eq_refl)). lia.
  - cbn [seq map concat]. destruct c as [|e c].
    + cbn [filter app]. apply (IH [] (Datatypes.S s)); [constructor|intros e []].
    + cbn [map] in S. inversion S as [|? ? S' F]; subst. destruct (Nat.eqb_spec (fst e) s) as [E|N].
      * cbn [filter]. rewrite (proj2 (Nat.eqb_eq (fst e) s) E).
        assert (Z : filter (fun e0 => Nat.eqb (fst e0) s) c = []).
        { apply filter_none. intros y Hy. apply Nat.eqb_neq. rewrite Forall_forall in F. assert (fst e < fst y)%nat by (apply F; now apply in_map). lia. }
        rewrite Z. cbn [map]. rewrite nsum_one. cbn [app]. f_equal; [destruct e; cbn in *; now subst|].
        etransitivity; [|apply (IH c (Datatypes.S s) S')].
        -- f_equal. apply map_ext_in. intros i Hi. apply in_seq in Hi. cbn [filter]. destruct (Nat.eqb_spec (fst e) i); [lia|reflexivity].
        -- intros y Hy. specialize (B y (or_intror Hy)). rewrite Forall_forall in F. assert (fst e < fst y)%nat by (apply F; now apply in_map). lia.
      * assert (Z : filter (fun e0 => Nat.eqb (fst e0) s) (e :: c) = []).
        { apply filter_none. intros y [<-|Hy]; apply Nat.eqb_neq; [exact N|]. specialize (B e (or_introl eq_refl)).
          rewrite Forall_forall in F. assert (fst e < fst y)%nat by (apply F; now apply in_map). lia. }
        rewrite Z. cbn [app]. apply (IH (e :: c) (Datatypes.S s) S). intros y Hy. pose proof (B y Hy). assert (fst y <> s); [|lia].
        intros E. assert (T : In y (filter (fun e0 => Nat.eqb (fst e0) s) (e :: c))) by (apply filter_In; split; [exact Hy|now apply Nat.eqb_eq]).
        rewrite Z in T. destruct T.
Qed.

Lemma triplet_filter (cols : list (list (nat * R))) i j : forall k,
  filter (fun e : nat * nat * R => Nat.eqb (fst (fst e)) i && Nat.eqb (snd (fst e)) j)
    (concat (map (fun jc : nat * list (nat * R) => map (fun e => (fst e, fst jc, snd e)) (snd jc)) (combine (seq k (length cols)) cols))) =
  if (k <=? j)%nat then map (fun e => (fst e, j, snd e)) (filter (fun e => Nat.eqb (fst e) i) (nth (j - k) cols [])) else [].
Proof.
  induction cols as [|c cols IH]; intros k.
  - cbn. destruct (k <=? j)%nat; [|reflexivity]. now destruct (j - k)%nat.
  - cbn [length seq combine map concat fst snd]. rewrite filter_app, IH.
    assert (H : filter (fun e : nat * nat * R => Nat.eqb (fst (fst e)) i && Nat.eqb (snd (fst e)) j) (map (fun e : nat * R => (fst e, k, snd e)) c) =
                if (k =? j)%nat then map (fun e => (fst e, j, snd e)) (filter (fun e => Nat.eqb (fst e) i) c) else []).
    { clear. induction c as [|e c IH]; cbn [map filter fst snd]; [now destruct (k =? j)%nat|]. revert IH. destruct (Nat.eqb_spec k j) as [E|N]; intros IH; [rewrite E in *|].
      - rewrite andb_true_r. destruct (fst e =? i)%nat; cbn [map]; now rewrite IH.
      - rewrite andb_false_r. exact IH. }
    rewrite H. clear H. destruct (Nat.eqb_spec k j) as [E|N].
    + rewrite E. destruct (Nat.leb_spec (S j) j), (Nat.leb_spec j j); try lia. rewrite Nat.sub_diag, app_nil_r. reflexivity.
    + destruct (Nat.leb_spec (S k) j), (Nat.leb_spec k j); try lia; try reflexivity.
      replace (j - k)%nat with (S (j - S k)) by lia. reflexivity.
Qed.

Lemma filter_map {A B} (g : A -> B) p l : filter p (map g l) = map g (filter (fun x => p (g x)) l).
Proof. induction l as [|x l IH]; cbn; [reflexivity|]. destruct (p (g x)); cbn; now rewrite IH. Qed.

Definition shift {A} (d : nat) (c : list (nat * A)) : list (nat * A) := map (fun e => ((d + fst e)%nat, snd e)) c.

Lemma sorted_shift {A} d (c : list (nat * A)) : StronglySorted lt (map fst c) -> StronglySorted lt (map fst (shift d c)).
Proof.
  unfold shift. rewrite map_map. cbn [fst]. induction c as [|e c IH]; cbn [map]; intros S; [constructor|]. inversion S as [|? ? S' F]; subst.
  constructor; [now apply IH|]. rewrite Forall_forall in *. intros y Hy. apply in_map_iff in Hy. destruct Hy as [z [<- Hz]].
  assert (fst e < fst z)%nat by (apply F; now apply in_map). lia.
Qed.

Lemma concatenate_Matrix_cols (m1 m2 : csc R) : (forall c, In c (cs_cols m1) -> StronglySorted lt (map fst c)) -> (forall c, In c (cs_cols m2) -> StronglySorted lt (map fst c)) ->
  (forall c e, In c (cs_cols m1) -> In e c -> (fst e < cs_rows m1)%nat) -> (forall c e, In c (cs_cols m2) -> In e c -> (fst e < cs_rows m2)%nat) ->
  concatenate_Matrix Rnum m1 m2 = mkCsc (cs_rows m1 + cs_rows m2) (cs_cols m1 ++ map (shift (cs_rows m1)) (cs_cols m2)).
Proof.
  intros S1 S2 B1 B2. unfold concatenate_Matrix, sparseMatrix. f_equal. set (r1 := cs_rows m1). set (c1 := length (cs_cols m1)).
  apply (nth_ext _ _ [] []); [rewrite map_length, seq_length, app_length, map_length; reflexivity|].
  intros j Hj. rewrite map_length, seq_length in Hj. 
  rewrite (nth_map_seq _ _ j) by exact Hj. cbn [Nat.add].
  assert (F : forall i, filter (fun e : nat * nat * R => Nat.eqb (fst (fst e)) i && Nat.eqb (snd (fst e)) j)
      (triplet_form Rnum m1 ++ map (fun e : nat * nat * R => ((r1 + fst (fst e))%nat, (c1 + snd (fst e))%nat, snd e)) (triplet_form Rnum m2)) =
      map (fun e => (fst e, j, snd e)) (filter (fun e => Nat.eqb (fst e) i) (nth j (cs_cols m1 ++ map (shift r1) (cs_cols m2)) []))).
  { intros i. rewrite filter_app, filter_map. cbn [fst snd]. unfold triplet_form.
    pose proof (triplet_filter (cs_cols m1) i j 0) as T1. cbn [Nat.leb] in T1. rewrite Nat.sub_0_r in T1.
    match goal with |- ?a ++ _ = _ => change a with (filter (fun e : nat * nat * R => Nat.eqb (fst (fst e)) i && Nat.eqb (snd (fst e)) j)
      (concat (map (fun jc : nat * list (nat * R) => map (fun e => (fst e, fst jc, snd e)) (snd jc)) (combine (seq 0 (length (cs_cols m1))) (cs_cols m1))))) end.
    rewrite T1. destruct (Nat.ltb_spec j c1) as [L|L].
    - rewrite (app_nth1 _ _ _ L). rewrite (filter_none _ (concat _)); [cbn [map]; now rewrite app_nil_r|].
      intros e _. apply andb_false_intro2. apply Nat.eqb_neq. lia.
    - rewrite (nth_overflow (cs_cols m1)) by exact L. cbn [filter map app]. rewrite app_nth2 by exact L. fold c1.
      assert (MN : nth (j - c1) (map (shift r1) (cs_cols m2)) [] = shift r1 (nth (j - c1) (cs_cols m2) [])) by exact (map_nth (shift r1) (cs_cols m2) [] (j - c1)).
      rewrite MN.
      destruct (Nat.leb_spec r1 i) as [LI|LI].
      + rewrite (filter_ext _ (fun e : nat * nat * R => Nat.eqb (fst (fst e)) (i - r1) && Nat.eqb (snd (fst e)) (j - c1))).
        * pose proof (triplet_filter (cs_cols m2) (i - r1) (j - c1) 0) as T2. cbn [Nat.leb] in T2. rewrite Nat.sub_0_r in T2.
          etransitivity; [exact (f_equal (map (fun e : nat * nat * R => ((r1 + fst (fst e))%nat, (c1 + snd (fst e))%nat, snd e))) T2)|]. rewrite map_map. cbn [fst snd]. unfold shift. rewrite filter_map, map_map. cbn [fst snd].
          rewrite (filter_ext (fun x : nat * R => Nat.eqb (r1 + fst x) i) (fun e => Nat.eqb (fst e) (i - r1))).
          -- apply map_ext. intros e. do 2 f_equal. lia.
          -- intros e. destruct (Nat.eqb_spec (r1 + fst e) i), (Nat.eqb_spec (fst e) (i - r1)); try reflexivity; lia.
        * intros e. f_equal.
          -- destruct (Nat.eqb_spec (r1 + fst (fst e)) i), (Nat.eqb_spec (fst (fst e)) (i - r1)); try reflexivity; lia.
          -- destruct (Nat.eqb_spec (c1 + snd (fst e)) j), (Nat.eqb_spec (snd (fst e)) (j - c1)); try reflexivity; lia.
      + rewrite !filter_none; [reflexivity| |].
        * intros e He. unfold shift in He. apply in_map_iff in He. destruct He as [y [<- _]]. cbn [fst]. apply Nat.eqb_neq. lia.
        * intros e _. apply andb_false_intro1. apply Nat.eqb_neq. lia. }
  set (c := nth j (cs_cols m1 ++ map (shift r1) (cs_cols m2)) []) in *.
  assert (IC : In c (cs_cols m1) \/ exists c', In c' (cs_cols m2) /\ c = shift r1 c').
  { assert (I : In c (cs_cols m1 ++ map (shift r1) (cs_cols m2))) by (apply nth_In; rewrite app_length, map_length; exact Hj).
    apply in_app_iff in I. destruct I as [I|I]; [now left|right]. apply in_map_iff in I. destruct I as [c' [<- I]]. now exists c'. }
  etransitivity; [|apply (column_again c (r1 + cs_rows m2) 0)].
  - f_equal. apply map_ext. intros i. 
    match goal with |- match ?a with _ => _ end = _ => replace a with (map (fun e : nat * R => (fst e, j, snd e)) (filter (fun e => Nat.eqb (fst e) i) c)) by (symmetry; exact (F i)) end.
    destruct (filter (fun e => Nat.eqb (fst e) i) c) as [|e es]; [reflexivity|]. cbn [map fst snd]. rewrite map_map. cbn [snd]. reflexivity.
  - destruct IC as [I|[c' [I ->]]]; [now apply S1|]. apply sorted_shift. now apply S2.
  - intros e He. destruct IC as [I|[c' [I E]]].
    + specialize (B1 c e I He). unfold r1. lia.
    + rewrite E in He. unfold shift in He. apply in_map_iff in He. destruct He as [y [<- Hy]]. cbn [fst]. specialize (B2 c' y I Hy). unfold r1. lia.
Qed.
