(** C81: a file with a factorization can be read back. *)
From Coq Require Import String Ascii List ZArith Reals Lia Lra Bool Permutation.
From Verif Require Import Model.Base Model.Family Model.GLMM Model.SplitFrame Model.SaveFile Spec.Numbers Spec.GLMMSpec Spec.SplitSpec Spec.SaveSpec
  Proofs.SplitLemmas Proofs.SplitMain Proofs.SaveLemmas Proofs.GLMMLemmas.
Import ListNotations.
Local Open Scope string_scope.
Notation length := List.length.

Record good (limit : Z) (d : glmm_data Rnum) : Prop := {
  go_shaped : shaped d;
  go_cols : length (sp_cols _ (gd_Lambdat _ d)) = length (gd_items _ d);
  go_items : forall i, In i (gd_items _ d) -> (0 <= i < limit)%Z;
  go_size : (Z.of_nat (length (gd_items _ d)) < limit)%Z;
  go_obs : (Z.of_nat (gd_numObs _ d) < limit)%Z;
  go_fixed : (Z.of_nat (gd_numFixed _ d) < limit)%Z;
  go_entries : (Z.of_nat (length (concat (sp_cols _ (gd_Lambdat _ d)))) < limit)%Z;
  go_rows : forall c e, In c (sp_cols _ (gd_Lambdat _ d)) -> In e c -> (fst e < length (gd_items _ d))%nat;
  go_Lind : forall l, In l (gd_Lind _ d) -> (0 <= l < limit)%Z
}.

Section Line.
Context (value : string -> option R) (text : R -> string) (round : R -> R) (limit : Z).
Hypothesis W : writes_numbers text value round limit.
Context (d : glmm_data Rnum).
Hypothesis G : good limit d.
Let H := go_shaped _ _ G.

Definition front : list string :=
  ([text (IZR (Z.of_nat (length (gd_items _ d))))] ++ map (fun i => text (IZR i)) (gd_items _ d) ++
  [text (IZR (Z.of_nat (gd_numObs _ d)))] ++ [text (IZR (Z.of_nat (gd_numFixed _ d)))] ++
  map text (by_columns (gd_numFixed _ d) (gd_X _ d)) ++ map text (by_columns (gd_numObs _ d) (gd_Zt _ d)) ++
  [text (IZR (Z.of_nat (length (concat (sp_cols _ (gd_Lambdat _ d))))))] ++ map text (triplet_numbers (sp_cols _ (gd_Lambdat _ d))) ++
  map (fun i => text (IZR i)) (gd_Lind _ d))%list.
Lemma words_front logical : oneline_words text logical d = "G" :: (front ++ response_words text logical (gd_response _ d) ++ map text (gd_weights _ d))%list.
Proof. unfold oneline_words, front. rewrite <- !app_assoc. reflexivity. Qed.

Lemma by_columns_length n p (M : list (list R)) : length M = n -> length (by_columns p M) = (n * p)%nat.
Proof.
  intros <-. unfold by_columns. rewrite (IndexMain.concat_uniform_length _ (length M)); [now rewrite map_length, seq_length|].
  intros x Hx. apply in_map_iff in Hx. destruct Hx as (j & <- & _). now rewrite map_length.
Qed.

(** What is read of the rest of the line. *)
Definition back (items : list Z) (X Zt : list R) (L : list (nat * nat * R)) (Lind : list Z) : reader (term Rnum) :=
  then_ (many (gd_numObs _ d) (number value)) (fun y => then_ (many (gd_numObs _ d) (number value)) (fun w =>
  give (GLMMTerm Rnum (mkData Rnum items (matrix_of (gd_numObs _ d) (gd_numFixed _ d) X) (gd_numFixed _ d)
    (matrix_of (length (gd_items _ d)) (gd_numObs _ d) Zt) (gd_numObs _ d)
          (mkSparse Rnum (length (gd_items _ d)) (columns_of (length (gd_items _ d)) L)) Lind y w)))).
Lemma front_reads rest : read_glmm value (front ++ rest)%list =
  back (gd_items _ d) (map round (by_columns (gd_numFixed _ d) (gd_X _ d))) (map round (by_columns (gd_numObs _ d) (gd_Zt _ d)))
    (map (fun t => (fst (fst t), snd (fst t), round (snd t))) (trips 0 (sp_cols _ (gd_Lambdat _ d)))) (gd_Lind _ d) rest.
Proof.
  unfold front, read_glmm, then_ at 1. rewrite <- !app_assoc.
  rewrite (reads_whole value text round limit W) by (pose proof (go_size _ _ G); lia).
  cbv zeta. rewrite Nat2Z.id. unfold then_ at 1.
  rewrite (reads_many' (whole_number value) (fun i => text (IZR i)) (fun i => i) _ _ eq_refl).
  2: { intros i Hi. apply (reads_whole value text round limit W). pose proof (go_items _ _ G i Hi). lia. }
  rewrite map_id. unfold then_ at 1.
  rewrite (reads_whole value text round limit W) by (pose proof (go_obs _ _ G); lia).
  rewrite Nat2Z.id. unfold then_ at 1.
  rewrite (reads_whole value text round limit W) by (pose proof (go_fixed _ _ G); lia).
  rewrite Nat2Z.id. unfold then_ at 1.
  rewrite (reads_many' (number value) text round) by (try (intros; apply (reads_number value text round limit W)); symmetry; apply by_columns_length, (sh_X _ H)).
  unfold then_ at 1.
  rewrite (reads_many' (number value) text round).
  2: { symmetry. apply by_columns_length. exact (eq_trans (sh_Zt _ H) (go_cols _ _ G)). }
  2: { intros; apply (reads_number value text round limit W). }
  unfold then_ at 1.
  rewrite (reads_whole value text round limit W) by (pose proof (go_entries _ _ G); lia).
  rewrite Nat2Z.id. unfold then_ at 1.
  rewrite triplet_numbers_eq, concat_map, map_map.
  rewrite <- (trips_length (sp_cols _ (gd_Lambdat _ d)) 0).
  rewrite (reads_many (triplet value) _ (fun t => (fst (fst t), snd (fst t), round (snd t)))).
  2: { intros t Ht. cbn [map]. destruct (trips_In _ _ _ Ht) as [B (c & Hc & He)].
       pose proof (go_rows _ _ G c _ Hc He) as B'. cbn [fst] in B'. pose proof (go_size _ _ G). assert (B2 : (snd (fst t) < length (gd_items _ d))%nat) by (rewrite <- (go_cols _ _ G); exact (proj2 B)).
       apply (reads_triplet value text round limit W); lia. }
  unfold then_ at 1. rewrite trips_length.
  rewrite (reads_many' (whole_number value) (fun i => text (IZR i)) (fun i => i)).
  2: { rewrite (sh_Lind _ H). symmetry. apply places_length. }
  2: { intros i Hi. apply (reads_whole value text round limit W). pose proof (go_Lind _ _ G i Hi). lia. }
  rewrite map_id. reflexivity.
Qed.

Lemma line_reads : all_read (read_glmm value) (front ++ map text (gd_response _ d) ++ map text (gd_weights _ d))%list = Some (rounded round (GLMMTerm Rnum d)).
Proof.
  unfold all_read. rewrite front_reads. unfold back, then_.
  rewrite (reads_many' (number value) text round) by (try (intros; apply (reads_number value text round limit W)); symmetry; apply (sh_y _ H)).
  rewrite <- (app_nil_r (map text (gd_weights _ d))).
  rewrite (reads_many' (number value) text round) by (try (intros; apply (reads_number value text round limit W)); symmetry; apply (sh_w _ H)).
  unfold give, rounded. do 3 f_equal.
  - apply matrix_columns; [apply (sh_X _ H)|apply (sh_Xrow _ H)].
  - apply matrix_columns; [exact (eq_trans (sh_Zt _ H) (go_cols _ _ G))|apply (sh_Ztrow _ H)].
  - rewrite <- (go_cols _ _ G) at 2. rewrite columns_trips. now rewrite (sh_rows _ H).
Qed.
Lemma line_fails : value "TRUE" = None -> value "FALSE" = None -> (1 <= gd_numObs _ d)%nat ->
  all_read (read_glmm value) (front ++ response_words text true (gd_response _ d) ++ map text (gd_weights _ d))%list = None.
Proof.
  intros T F N. unfold all_read. rewrite front_reads. unfold back, then_.
  pose proof (sh_y _ H) as L. destruct (gd_numObs _ d) as [|n]; [lia|]. destruct (gd_response _ d) as [|v y]; [discriminate|].
  cbn [response_words map List.app many]. unfold then_ at 1. unfold number at 1. destruct (Req_EM_T v 0); now rewrite ?T, ?F.
Qed.

Lemma front_words : List.Forall word front.
Proof.
  assert (T : forall l, List.Forall word (map text l)).
  { intros l. apply Forall_forall. intros w Hw. apply in_map_iff in Hw. destruct Hw as (x & <- & _). apply (text_word value text round limit W). }
  assert (T' : forall l, List.Forall word (map (fun i => text (IZR i)) l)).
  { intros l. rewrite <- (map_map IZR text). apply T. }
  assert (T1 : forall x, List.Forall word [text x]) by (intros x; apply (T [x])).
  unfold front. repeat (apply Forall_app; split); auto.
Qed.
Lemma all_words logical : List.Forall word (oneline_words text logical d).
Proof.
  rewrite words_front. constructor; [repeat split; easy|]. apply Forall_app. split; [apply front_words|].
  assert (T : forall l, List.Forall word (map text l)).
  { intros l. apply Forall_forall. intros w Hw. apply in_map_iff in Hw. destruct Hw as (x & <- & _). apply (text_word value text round limit W). }
  apply Forall_app. split; [|apply T]. unfold response_words. destruct logical; [|apply T].
  apply Forall_forall. intros w Hw. apply in_map_iff in Hw. destruct Hw as (x & <- & _). destruct (Req_EM_T x 0); repeat split; easy.
Qed.
Lemma read_oneline : read_line value (cat (oneline_words text false d)) = Some (rounded round (GLMMTerm Rnum d)).
Proof. unfold read_line. rewrite words_cat by apply all_words. rewrite words_front. cbn [String.eqb]. apply line_reads. Qed.
Lemma read_logical : value "TRUE" = None -> value "FALSE" = None -> (1 <= gd_numObs _ d)%nat -> read_line value (cat (oneline_words text true d)) = None.
Proof. intros. unfold read_line. rewrite words_cat by apply all_words. rewrite words_front. cbn [String.eqb]. now apply line_fails. Qed.
Lemma oneline_body logical : cat (oneline_words text logical d) <> "" /\ has_char (ascii_of_nat 10) (cat (oneline_words text logical d)) = false.
Proof.
  split; [|apply cat_free, all_words]. rewrite words_front. unfold cat, front. easy.
Qed.
End Line.

(** * The local terms *)
Lemma position_lt x C : In x C -> (position x C < length C)%nat.
Proof. induction C as [|y C IH]; [easy|]. cbn. intros H. destruct (Nat.eqb_spec x y) as [->|N]; [lia|]. destruct H as [->|H]; [easy|]. specialize (IH H). lia. Qed.
Lemma sum_sub (f : nat -> nat) l : NoDup l -> forall m, incl l m -> (fold_right plus 0 (map f l) <= fold_right plus 0 (map f m))%nat.
Proof.
  induction 1 as [|x l N D IH]; intros m I; [cbn; lia|]. destruct (in_split x m) as (m1 & m2 & ->); [apply I; now left|].
  assert (E : fold_right plus 0 (map f (m1 ++ x :: m2)) = (f x + fold_right plus 0 (map f (m1 ++ m2)))%nat).
  { rewrite !map_app, !fold_right_app. cbn [map fold_right]. generalize (fold_right plus 0 (map f m2)). clear. intros k. revert k. induction m1 as [|a m1 IH]; intros k; cbn; [lia|]. rewrite IH. lia. }
  rewrite E. cbn [map fold_right]. apply Nat.add_le_mono_l, IH. intros y Hy. assert (In y (m1 ++ x :: m2)) as Y by (apply I; now right).
  rewrite in_app_iff in *. destruct Y as [Y|[->|Y]]; auto. contradiction.
Qed.
Lemma concat_sum {A} (l : list (list A)) : length (concat l) = fold_right plus 0 (map (@length A) l).
Proof. induction l as [|a l IH]; [reflexivity|]. cbn. now rewrite app_length, IH. Qed.
Lemma entries_le {A} (cols : list (list (nat * A))) C q : length cols = q -> NoDup C -> (forall c, In c C -> (1 <= c <= q)%nat) ->
  (length (concat (map (fun c => sub_col C (nth (c - 1) cols [])) C)) <= length (concat cols))%nat.
Proof.
  intros L D B. rewrite !concat_sum, map_map.
  apply Nat.le_trans with (fold_right plus 0 (map (fun c => length (nth (c - 1) cols [])) C)).
  { assert (H : forall l, (fold_right plus 0 (map (fun c => length (sub_col C (nth (c - 1) cols []))) l) <= fold_right plus 0 (map (fun c => length (nth (c - 1) cols [])) l))%nat); [|apply H].
    induction l as [|c l IH]; [apply Nat.le_refl|]. cbn [map fold_right]. apply Nat.add_le_mono; [|exact IH].
    unfold sub_col. rewrite map_length. generalize (nth (c - 1) cols []). intros m. induction m as [|e m IHm]; [apply Nat.le_refl|]. cbn [filter length]. destruct (is_element _ _); cbn [length]; lia. }
  apply Nat.le_trans with (fold_right plus 0 (map (fun c => length (nth (c - 1) cols [])) (seq 1 q))).
  { apply (sum_sub (fun c => length (nth (c - 1) cols []))); [exact D|]. intros c Hc. apply in_seq. specialize (B c Hc). lia. }
  apply Nat.eq_le_incl. f_equal. rewrite <- seq_shift, map_map. subst q.
  rewrite (map_ext _ (fun k => length (nth k cols []))) by (intros k; f_equal; f_equal; lia).
  clear. rewrite <- (map_map (fun k => nth k cols []) (@length _)). f_equal.
  induction cols as [|c l IH]; [reflexivity|]. cbn [length seq map nth]. f_equal. rewrite <- seq_shift, map_map. exact IH.
Qed.

Lemma nodup_left {A} (l m : list A) : NoDup (l ++ m)%list -> NoDup l.
Proof. induction l as [|a l IH]; intros D; [constructor|]. inversion D; subst. constructor; [|now apply IH]. intros I. apply H1, in_app_iff. now left. Qed.
Lemma nodup_right {A} (l m : list A) : NoDup (l ++ m)%list -> NoDup m.
Proof. induction l as [|a l IH]; intros D; [exact D|]. inversion D; subst. now apply IH. Qed.

Section File.
Context (value : string -> option R) (text15 text7 : R -> string) (round15 round7 : R -> R) (limit limit' : Z).
Hypothesis W15 : writes_numbers text15 value round15 limit.
Hypothesis W7 : writes_numbers text7 value round7 limit'.
Hypothesis Big : (1 < limit)%Z /\ (1 < limit')%Z.
Context (fr : frame Rnum).
Hypothesis Reg : regular fr.
Hypothesis Small : counts_below limit limit' fr.
Let n := length (cs_cols (fr_Zt _ fr)).
Let q := cs_rows (fr_Zt _ fr).
Hypothesis Hn : (1 <= n)%nat.
Let act := find_active (fr_Lambdat _ fr) (fr_Zt _ fr).

Lemma local_good C os : NoDup C -> (forall c, In c C -> (1 <= c <= q)%nat) -> NoDup os -> (forall o, In o os -> (1 <= o <= n)%nat) -> good limit (local fr C os).
Proof.
  destruct Small as (S1 & S2 & S3 & S4 & S5 & S6). fold n q in S1, S5, S6. intros DC BC Do Bo.
  assert (LC : (length C <= q)%nat).
  { rewrite <- (seq_length q 1). apply NoDup_incl_length; [exact DC|]. intros c Hc. apply in_seq. specialize (BC c Hc). lia. }
  constructor.
  - now apply local_shaped.
  - cbn [local gd_Lambdat sp_cols gd_items]. now rewrite !map_length.
  - cbn [local gd_items]. intros i Hi. apply in_map_iff in Hi. destruct Hi as (c & <- & Hc). specialize (BC c Hc). lia.
  - cbn [local gd_items]. rewrite map_length. lia.
  - cbn [local gd_numObs]. assert (length os <= n)%nat; [|lia].
    rewrite <- (seq_length n 1). apply NoDup_incl_length; [exact Do|]. intros o Ho. apply in_seq. specialize (Bo o Ho). lia.
  - exact S2.
  - cbn [local gd_Lambdat sp_cols]. pose proof (entries_le (cs_cols (fr_Lambdat _ fr)) C q (re_Lcols _ Reg) DC BC) as E.
    rewrite (re_Lind _ Reg) in S3. eapply Z.le_lt_trans; [|exact S3]. apply inj_le. exact E.
  - cbn [local gd_Lambdat sp_cols gd_items]. intros col e Hc He. apply in_map_iff in Hc. destruct Hc as (c & <- & Hc). unfold sub_col in He. apply in_map_iff in He.
    destruct He as (e' & <- & He). apply filter_In in He. destruct He as [_ He]. cbn [fst]. rewrite map_length. apply position_lt. now apply is_element_In.
  - intros l Hl. assert (R1 := local_Lind fr Reg C os (Z.to_nat (limit - 1))). assert (0 <= l < Z.of_nat (Z.to_nat (limit - 1)))%Z as B; [|lia].
    apply R1; [|exact Hl]. intros k Hk. specialize (S4 k Hk). lia.
Qed.

Definition logical : bool := match fr_response _ fr with Numeric _ => false | Factor _ => true end.
Definition normal_words (i : nat) : list string := ["N"; text7 1; text7 (IZR (Z.of_nat i)); text7 0; text7 1].
Definition normal_body (i : nat) : string := String.concat "" (map (fun w => w ++ " ") (normal_words i)).
Lemma normal_line_eq i : normal_line text7 (S i) = normal_body i ++ newline.
Proof.
  unfold normal_line. replace (Z.of_nat (S i) - 1)%Z with (Z.of_nat i) by lia.
  exact (cat_newline (normal_words i)).
Qed.
Lemma normal_all i : List.Forall word (normal_words i).
Proof. unfold normal_words. constructor; [repeat split; easy|]. repeat (constructor; [apply (text_word value text7 round7 limit' W7)|]). constructor. Qed.
Lemma read_normal_line i : (i < q)%nat -> read_line value (normal_body i) = Some (NormalTerm Rnum [Z.of_nat i] [0%R] [[1%R]]).
Proof.
  intros Hi. destruct Small as (_ & _ & _ & _ & _ & S6). fold q in S6. unfold read_line, normal_body. rewrite words_blank by apply normal_all. unfold normal_words. cbn [String.eqb Ascii.eqb Bool.eqb].
  unfold all_read, read_gaussian, then_ at 1.
  pose proof (reads_whole value text7 round7 limit' W7) as RW. pose proof (reads_number value text7 round7 limit' W7) as RN.
  change (text7 1) with (text7 (IZR 1)). change (text7 0) with (text7 (IZR 0)).
  rewrite (RW 1%Z ltac:(lia) [text7 (IZR (Z.of_nat i)); text7 (IZR 0); text7 (IZR 1)] : _ (_ :: _) = _). cbv zeta. change (Z.to_nat 1) with 1%nat. unfold then_ at 1. cbn [many Nat.mul Nat.add].
  unfold then_ at 1. rewrite (RW (Z.of_nat i) ltac:(lia) [text7 (IZR 0); text7 (IZR 1)] : _ (_ :: _) = _). cbn [then_ give]. unfold then_ at 1 2, give.
  rewrite (RN (IZR 0) [text7 (IZR 1)] : _ (_ :: _) = _). unfold then_ at 1 2.
  unfold then_ at 1.
  rewrite (RN (IZR 1) [] : _ (_ :: _) = _). rewrite !(wn_whole _ _ _ _ W7) by lia. reflexivity.
Qed.

Lemma save_eq ext : add_obs (unique identical act) act (seq 1 n) = Ok ext ->
  let ds := map (fun e => local fr (fst e) (snd e)) ext in
  (forall d, In d ds -> good limit d) /\
  save_factorization text15 text7 fr =
    Ok (String.concat "" (map (fun b => b ++ newline) (map (fun d => cat (oneline_words text15 logical d)) ds ++ map normal_body (seq 0 q)))) /\
  find_factorization_terms Rnum fr = Ok (map (GLMMTerm Rnum) ds ++ map (fun i => NormalTerm Rnum [Z.of_nat i] [0%R] [[1%R]]) (seq 0 q))%list /\
  exists d, In d ds /\ (1 <= gd_numObs _ d)%nat.
Proof.
  intros E ds. destruct (proj1 (add_obs_spec _ act (seq 1 n) (seq_NoDup _ _)) ext E) as (M & P & I).
  assert (Each : forall C os, In (C, os) ext -> (forall c, In c C -> (1 <= c <= q)%nat) /\ NoDup C /\ (forall o, In o os -> (1 <= o <= n)%nat) /\ NoDup os).
  { intros C os He. destruct (active_range fr Reg C) as (A1 & A2 & _).
    { apply (unique_In identical identical_eq). fold act. rewrite <- M. now apply (in_map fst) in He. }
    split; [exact A1|]. split; [exact A2|]. split.
    - intros o Ho. assert (In o (seq 1 n)) as X by (rewrite <- P; apply in_concat; exists os; split; [now apply (in_map snd) in He|easy]).
      apply in_seq in X. lia.
    - assert (D : NoDup (concat (map snd ext))) by (rewrite P; apply seq_NoDup). clear -D He. induction ext as [|e l IH]; [easy|]. cbn [map concat] in D.
      destruct He as [->|He]; [exact (nodup_left _ _ D)|exact (IH He (nodup_right _ _ D))]. }
  split; [|split; [|split]].
  - intros d Hd. apply in_map_iff in Hd. destruct Hd as ([C os] & <- & He). cbn [fst snd]. destruct (Each C os He) as (A1 & A2 & A3 & A4). now apply local_good.
  - unfold save_factorization. fold n q act. replace (one_to n) with (seq 1 n) by (symmetry; exact (one_to_range fr Hn)). rewrite E. cbn [bind].
    rewrite (mapM_all _ (fun e => lmodfr_to_oneline text15 logical (local fr (fst e) (snd e)))).
    + cbn [bind]. do 2 f_equal. unfold ds. rewrite map_app, !map_map. f_equal. rewrite <- seq_shift, map_map. apply map_ext. apply normal_line_eq.
    + intros [C os] He. cbn [fst snd]. destruct (Each C os He) as (A1 & A2 & A3 & A4). rewrite (local_ok fr Reg C os A1 A3). reflexivity.
  - rewrite (terms_eq fr Reg Hn). fold n q act. rewrite E. reflexivity.
  - assert (In 1%nat (concat (map snd ext))) as X by (rewrite P; apply in_seq; lia). apply in_concat in X. destruct X as (os & Hos & X).
    apply in_map_iff in Hos. destruct Hos as ([C os'] & <- & He). exists (local fr C os'). split; [apply in_map_iff; now exists (C, os')|].
    cbn [local gd_numObs snd] in *. destruct os'; [easy|]. cbn. lia.
Qed.

Lemma read_all_map {A B} (r : string -> option B) (f : A -> string) (g : A -> B) l : (forall a, In a l -> r (f a) = Some (g a)) -> read_all r (map f l) = Some (map g l).
Proof. induction l as [|a l IH]; intros H; [reflexivity|]. cbn. rewrite H by (now left). rewrite IH; [reflexivity|]. intros; apply H; now right. Qed.
Lemma read_all_app {B} (r : string -> option B) l m a b : read_all r l = Some a -> read_all r m = Some b -> read_all r (l ++ m)%list = Some (a ++ b)%list.
Proof.
  revert a. induction l as [|x l IH]; intros a H Hm; cbn in *; [now injection H as <-|]. destruct (r x); [|easy]. destruct (read_all r l); [|easy].
  injection H as <-. now rewrite (IH l0 eq_refl Hm).
Qed.
Lemma read_all_none {B} (r : string -> option B) l x : In x l -> r x = None -> read_all r l = None.
Proof. induction l as [|y l IH]; [easy|]. intros [->|H] N; cbn; [now rewrite N|]. rewrite (IH H N). now destruct (r y). Qed.

Lemma bodies_ok ds : (forall d, In d ds -> good limit d) -> forall b, In b (map (fun d => cat (oneline_words text15 logical d)) ds ++ map normal_body (seq 0 q))%list ->
  b <> "" /\ has_char (ascii_of_nat 10) b = false.
Proof.
  intros Gd b Hb. apply in_app_or in Hb. destruct Hb as [Hb|Hb]; apply in_map_iff in Hb; destruct Hb as (x & <- & Hx).
  - apply (oneline_body value text15 round15 limit W15).
  - split; [easy|]. apply blank_free, normal_all.
Qed.
Lemma file_main y ts : fr_response _ fr = Numeric _ y -> find_factorization_terms Rnum fr = Ok ts ->
  exists file, save_factorization text15 text7 fr = Ok file /\ read_file value file = Some (map (rounded round15) ts).
Proof.
  intros Ey Ht. rewrite (terms_eq fr Reg Hn) in Ht. fold n q act in Ht.
  destruct (add_obs (unique identical act) act (seq 1 n)) as [ext| | |] eqn:E; try discriminate.
  destruct (save_eq ext E) as (Gd & Es & Et & _). set (ds := map (fun e => local fr (fst e) (snd e)) ext) in *.
  eexists. split; [exact Es|]. unfold read_file. rewrite lines_concat by now apply bodies_ok.
  injection Ht as <-. rewrite map_app. apply read_all_app.
  - rewrite map_map. apply read_all_map. intros d Hd. unfold logical. rewrite Ey. now apply (read_oneline value text15 round15 limit W15), Gd.
  - rewrite map_map. apply read_all_map. intros i Hi. apply in_seq in Hi. rewrite read_normal_line by lia. cbn [rounded map].
    change 0%R with (IZR 0). change 1%R with (IZR 1). now rewrite !(wn_whole _ _ _ _ W15) by lia.
Qed.
Lemma logical_main codes ts : fr_response _ fr = Factor _ codes -> value "TRUE" = None -> value "FALSE" = None -> find_factorization_terms Rnum fr = Ok ts ->
  exists file, save_factorization text15 text7 fr = Ok file /\ read_file value file = None.
Proof.
  intros Ey T F Ht. rewrite (terms_eq fr Reg Hn) in Ht. fold n q act in Ht.
  destruct (add_obs (unique identical act) act (seq 1 n)) as [ext| | |] eqn:E; try discriminate.
  destruct (save_eq ext E) as (Gd & Es & Et & d & Hd & Hobs). set (ds := map (fun e => local fr (fst e) (snd e)) ext) in *.
  eexists. split; [exact Es|]. unfold read_file. rewrite lines_concat by now apply bodies_ok.
  apply (read_all_none _ _ (cat (oneline_words text15 logical d))).
  - apply in_or_app. left. now apply (in_map (fun d => cat (oneline_words text15 logical d))).
  - unfold logical. rewrite Ey. apply (read_logical value text15 round15 limit W15); auto.
Qed.
End File.

(** * The normal distribution *)
Lemma normal_main value text round limit mean precision : writes_numbers text value round limit ->
  (Z.of_nat (length (concat precision)) < limit)%Z -> (Z.of_nat (length mean) <= limit)%Z -> length precision = length mean ->
  (forall c e, In c precision -> In e c -> (fst e < length mean)%nat) ->
  read_normal value (length mean) (save_normal text mean precision) = Some (map round mean, map (map (fun e => (fst e, round (snd e)))) precision).
Proof.
  intros W Hp Hm Hl Hr. unfold read_normal, save_normal. rewrite !cat_newline.
  assert (T : forall l, List.Forall word (map text l)).
  { intros l. apply Forall_forall. intros w Hw. apply in_map_iff in Hw. destruct Hw as (x & <- & _). apply (text_word value text round limit W). }
  set (a := String.concat "" (map (fun w => w ++ " ") (map text mean))).
  set (b := String.concat "" (map (fun w => w ++ " ") (map text (IZR (Z.of_nat (length (concat precision))) :: triplet_numbers precision)))).
  rewrite append_assoc. change (newline ++ b ++ newline) with (String (ascii_of_nat 10) (b ++ String (ascii_of_nat 10) "")).
  rewrite split_app by (apply blank_free, T). rewrite split_app by (apply blank_free, T).
  unfold a, b. rewrite !words_blank by apply T. cbn [map].
  assert (R1 : reads (many (length mean) (number value)) (map text mean) (map round mean))
    by (apply reads_many'; [reflexivity|intros; apply (reads_number value text round limit W)]).
  unfold all_read. specialize (R1 []). rewrite app_nil_r in R1. rewrite R1.
  assert (R2 : reads (then_ (whole_number value) (fun nentries => then_ (many (Z.to_nat nentries) (triplet value)) (fun l => give (columns_of (length mean) l))))
    ([text (IZR (Z.of_nat (length (concat precision))))] ++ map text (triplet_numbers precision) ++ [])%list (map (map (fun e => (fst e, round (snd e)))) precision)).
  { apply (reads_then _ _ _ _ (Z.of_nat (length (concat precision)))); [apply (reads_whole value text round limit W); lia|]. rewrite Nat2Z.id.
    apply (reads_then _ _ _ _ (map (fun t => (fst (fst t), snd (fst t), round (snd t))) (trips 0 precision))).
    - rewrite triplet_numbers_eq, concat_map, map_map. rewrite <- (trips_length precision 0). apply reads_many.
      intros t Ht. cbn [map]. destruct (trips_In _ _ _ Ht) as [B (c & Hc & He)]. pose proof (Hr c _ Hc He) as B'. cbn [fst] in B'.
      apply (reads_triplet value text round limit W); lia.
    - rewrite <- Hl. rewrite columns_trips. apply reads_give. }
  specialize (R2 []). rewrite !app_nil_r in R2. cbn [List.app] in R2. rewrite R2. reflexivity.
Qed.

