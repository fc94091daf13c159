(** Strings, words and readers. *)
From Coq Require Import String Ascii List ZArith Reals Lia Lra Bool.
From Verif Require Import Model.Base Model.Family Model.GLMM Model.SplitFrame Model.SaveFile Spec.Numbers Spec.SaveSpec Proofs.IndexMain.
Import ListNotations.
Local Open Scope string_scope.
Notation length := List.length.

Lemma split_nonempty c s : split_at c s <> [].
Proof. induction s as [|a s IH]; cbn; [easy|]. destruct (split_at c s); [easy|]. now destruct (Ascii.eqb a c). Qed.
Lemma split_free c s : has_char c s = false -> split_at c s = [s].
Proof.
  induction s as [|a s IH]; [reflexivity|]. cbn. intros H. apply orb_false_iff in H. destruct H as [H1 H2]. rewrite (IH H2), H1. reflexivity.
Qed.
Lemma split_app c s t : has_char c s = false -> split_at c (s ++ String c t) = s :: split_at c t.
Proof.
  induction s as [|a s IH]; cbn.
  - intros _. rewrite Ascii.eqb_refl. pose proof (split_nonempty c t). destruct (split_at c t); [easy|reflexivity].
  - intros H. apply orb_false_iff in H. destruct H as [H1 H2]. rewrite (IH H2), H1. reflexivity.
Qed.
Lemma has_char_app c s t : has_char c (s ++ t) = has_char c s || has_char c t.
Proof. induction s as [|a s IH]; cbn; [reflexivity|]. now rewrite IH, orb_assoc. Qed.

Definition word (s : string) : Prop := s <> "" /\ has_char " " s = false /\ has_char (ascii_of_nat 10) s = false.

Lemma words_cat ws : List.Forall word ws -> words_of (cat ws) = ws.
Proof.
  unfold words_of, cat. induction 1 as [|w ws (N & H & _) _ IH]; [reflexivity|]. cbn [String.concat]. destruct ws as [|v ws].
  - rewrite split_free by exact H. cbn. destruct w; [easy|reflexivity].
  - change (w ++ " " ++ String.concat " " (v :: ws)) with (w ++ String " " (String.concat " " (v :: ws))).
    rewrite split_app by exact H. cbn [filter]. rewrite IH. destruct w; [easy|reflexivity].
Qed.
(** With a blank at the end. *)
Lemma words_blank ws : List.Forall word ws -> words_of (String.concat "" (map (fun w => w ++ " ") ws)) = ws.
Proof.
  unfold words_of. induction 1 as [|w ws (N & H & _) _ IH]; [reflexivity|]. 
  assert (E : String.concat "" (map (fun w => w ++ " ") (w :: ws)) = w ++ String " " (String.concat "" (map (fun w => w ++ " ") ws))).
  { cbn [map]. generalize (map (fun w => w ++ " ") ws). intros l. clear. destruct l as [|v l].
    - reflexivity.
    - change (String.concat "" ((w ++ " ") :: v :: l)) with ((w ++ " ") ++ "" ++ String.concat "" (v :: l)). cbn [append].
      generalize (String.concat "" (v :: l)). intros t. induction w as [|a w IHw]; cbn; [reflexivity|]. now rewrite IHw. }
  rewrite E, split_app by exact H. cbn [filter]. rewrite IH. destruct w; [easy|reflexivity].
Qed.
Lemma append_assoc (a b c : string) : (a ++ b) ++ c = a ++ b ++ c.
Proof. induction a as [|x a IH]; cbn; [reflexivity|]. now rewrite IH. Qed.
Lemma append_nil (a : string) : a ++ "" = a.
Proof. induction a as [|x a IH]; cbn; [reflexivity|]. now rewrite IH. Qed.
Lemma cat_newline ws : cat (ws ++ [newline]) = String.concat "" (map (fun w => w ++ " ") ws) ++ newline.
Proof.
  unfold cat. induction ws as [|w ws IH]; [reflexivity|]. cbn [List.app map].
  destruct ws as [|v ws].
  - cbn [List.app map String.concat]. now rewrite append_assoc.
  - cbn [List.app map] in *. 
    change (w ++ " " ++ String.concat " " (v :: ws ++ [newline]) = ((w ++ " ") ++ "" ++ String.concat "" ((v ++ " ") :: map (fun w => w ++ " ") ws)) ++ newline).
    rewrite IH. cbn [append]. now rewrite !append_assoc.
Qed.

Lemma cat_free ws : List.Forall word ws -> has_char (ascii_of_nat 10) (cat ws) = false.
Proof.
  unfold cat. induction 1 as [|w ws (_ & _ & H) _ IH]; [reflexivity|]. cbn [String.concat]. destruct ws as [|v ws]; [exact H|].
  now rewrite !has_char_app, H, IH.
Qed.
Lemma blank_free ws : List.Forall word ws -> has_char (ascii_of_nat 10) (String.concat "" (map (fun w => w ++ " ") ws)) = false.
Proof.
  induction 1 as [|w ws (_ & _ & H) _ IH]; [reflexivity|]. cbn [map String.concat] in *. destruct (map (fun w => w ++ " ") ws) as [|v l].
  - now rewrite has_char_app, H.
  - now rewrite !has_char_app, H, IH.
Qed.
Lemma concat_cons a l : String.concat "" (a :: l) = a ++ String.concat "" l.
Proof. cbn [String.concat]. destruct l; [now rewrite append_nil|reflexivity]. Qed.

Lemma lines_concat (bodies : list string) : (forall b, In b bodies -> b <> "" /\ has_char (ascii_of_nat 10) b = false) ->
  lines_of (String.concat "" (map (fun b => b ++ newline) bodies)) = bodies.
Proof.
  unfold lines_of. induction bodies as [|b l IH]; intros H; [reflexivity|]. cbn [map]. rewrite concat_cons, append_assoc.
  change (newline ++ String.concat "" (map (fun b => b ++ newline) l)) with (String (ascii_of_nat 10) (String.concat "" (map (fun b => b ++ newline) l))).
  destruct (H b (or_introl eq_refl)) as [N F]. rewrite split_app by exact F. cbn [filter]. rewrite IH by (intros; apply H; now right).
  destruct b; [easy|reflexivity].
Qed.

(** * Readers *)
Section Readers.
Context (value : string -> option R).
Definition reads {A} (r : reader A) (ws : list string) (a : A) : Prop := forall rest, r (ws ++ rest)%list = Some (a, rest).
Lemma reads_then {A B} (r : reader A) (f : A -> reader B) ws ws' a b : reads r ws a -> reads (f a) ws' b -> reads (then_ r f) (ws ++ ws')%list b.
Proof. intros H1 H2 rest. unfold then_. now rewrite <- app_assoc, H1, H2. Qed.
Lemma reads_give {A} (a : A) : reads (give a) [] a.
Proof. easy. Qed.
Lemma reads_many {A B} (r : reader B) (enc : A -> list string) (dec : A -> B) l : (forall a, In a l -> reads r (enc a) (dec a)) ->
  reads (many (length l) r) (concat (map enc l)) (map dec l).
Proof.
  induction l as [|a l IH]; intros H; [apply reads_give|]. cbn [length many map concat].
  apply (reads_then _ _ _ _ (dec a)); [apply H; now left|]. rewrite <- (app_nil_r (concat (map enc l))).
  apply (reads_then _ _ _ _ (map dec l)); [apply IH; intros; apply H; now right|apply reads_give].
Qed.
Lemma concat_single {A B} (f : A -> B) l : concat (map (fun a => [f a]) l) = map f l.
Proof. induction l as [|a l IH]; [reflexivity|]. cbn. now rewrite IH. Qed.
Lemma reads_many' {A B} (r : reader B) (enc : A -> string) (dec : A -> B) l n : n = length l -> (forall a, In a l -> reads r [enc a] (dec a)) ->
  reads (many n r) (map enc l) (map dec l).
Proof. intros -> H. rewrite <- concat_single. now apply reads_many. Qed.

Context (text : R -> string) (round : R -> R) (limit : Z).
Hypothesis W : writes_numbers text value round limit.
Lemma reads_number x : reads (number value) [text x] (round x).
Proof. intros rest. cbn. now rewrite (wn_value _ _ _ _ W). Qed.
Lemma Int_part_IZR z : Int_part (IZR z) = z.
Proof. unfold Int_part. rewrite <- (tech_up (IZR z) (z + 1)); [lia| |]; rewrite plus_IZR; lra. Qed.
Lemma reads_whole z : (Z.abs z < limit)%Z -> reads (whole_number value) [text (IZR z)] z.
Proof. intros H rest. unfold whole_number. cbn. rewrite (wn_value _ _ _ _ W), (wn_whole _ _ _ _ W) by exact H. now rewrite Int_part_IZR. Qed.
Lemma reads_triplet i j x : (Z.of_nat i < limit)%Z -> (Z.of_nat j < limit)%Z ->
  reads (triplet value) [text (IZR (Z.of_nat i)); text (IZR (Z.of_nat j)); text x] (i, j, round x).
Proof.
  intros Hi Hj. unfold triplet.
  apply (reads_then _ _ [_] [_; _] (Z.of_nat i)); [apply reads_whole; lia|].
  apply (reads_then _ _ [_] [_] (Z.of_nat j)); [apply reads_whole; lia|].
  apply (reads_then _ _ [_] [] (round x)); [apply reads_number|]. rewrite !Nat2Z.id. apply reads_give.
Qed.
Lemma text_word x : word (text x).
Proof. apply (wn_word _ _ _ _ W). Qed.
End Readers.

(** * Matrices *)
Lemma matrix_columns (round : R -> R) n p (M : list (list R)) : length M = n -> (forall row, In row M -> length row = p) ->
  matrix_of n p (map round (by_columns p M)) = map (map round) M.
Proof.
  intros Hn Hp. unfold matrix_of. apply (nth_ext _ _ [] []); [now rewrite !map_length, seq_length|].
  intros i Hi. rewrite map_length, seq_length in Hi.
  rewrite (nth_indep _ [] (map (fun j => nth (j * n + 0) (map round (by_columns p M)) 0%R) (seq 0 p))) by now rewrite map_length, seq_length.
  rewrite (map_nth (fun i => map (fun j => nth (j * n + i) (map round (by_columns p M)) 0%R) (seq 0 p)) (seq 0 n) 0 i), seq_nth by exact Hi. cbn [Nat.add].
  rewrite (nth_indep (map (map round) M) [] (map round [])) by (rewrite map_length; lia). rewrite map_nth.
  assert (L : length (nth i M []) = p) by (apply Hp, nth_In; lia).
  apply (nth_ext _ _ (round 0%R) (round 0%R)); [now rewrite !map_length, seq_length|].
  intros j Hj. rewrite map_length, seq_length in Hj.
  rewrite (nth_indep (map (fun j => nth (j * n + i) (map round (by_columns p M)) 0%R) (seq 0 p)) _ ((fun j => nth (j * n + i) (map round (by_columns p M)) 0%R) 0%nat)) by now rewrite map_length, seq_length.
  rewrite (map_nth (fun j => nth (j * n + i) (map round (by_columns p M)) 0%R) (seq 0 p) 0 j), seq_nth by exact Hj. cbn [Nat.add].
  assert (U : forall x, In x (map (fun j => map (fun row => nth j row 0%R) M) (seq 0 p)) -> length x = n)
    by (intros x Hx; apply in_map_iff in Hx; destruct Hx as (k & <- & _); now rewrite map_length).
  rewrite (nth_indep (map round (by_columns p M)) 0%R (round 0%R)).
  2: { rewrite map_length. unfold by_columns. rewrite (concat_uniform_length _ n) by exact U. rewrite map_length, seq_length. nia. }
  rewrite !map_nth. f_equal. unfold by_columns. rewrite Nat.mul_comm, Nat.add_comm.
  rewrite (concat_uniform _ n 0%R j i) by (try exact U; rewrite ?map_length, ?seq_length; lia).
  rewrite (nth_indep _ [] ((fun j => map (fun row => nth j row 0%R) M) 0%nat)) by now rewrite map_length, seq_length.
  rewrite (map_nth (fun j => map (fun row => nth j row 0%R) M) (seq 0 p) 0 j), seq_nth by exact Hj. cbn [Nat.add].
  rewrite (nth_indep _ 0%R ((fun row => nth j row 0%R) [])) by (rewrite map_length; lia).
  now rewrite (map_nth (fun row => nth j row 0%R) M [] i).
Qed.

(** The triplets of a sparse matrix. *)
Definition trips {A} (s : nat) (cols : list (list (nat * A))) : list (nat * nat * A) :=
  concat (map (fun jc => map (fun e => (fst e, fst jc, snd e)) (snd jc)) (combine (seq s (length cols)) cols)).
Lemma trips_cons {A} s c (cols : list (list (nat * A))) : trips s (c :: cols) = (map (fun e => (fst e, s, snd e)) c ++ trips (S s) cols)%list.
Proof. reflexivity. Qed.
Lemma trips_length {A} (cols : list (list (nat * A))) : forall s, length (trips s cols) = length (concat cols).
Proof. induction cols as [|c l IH]; intros s; [reflexivity|]. rewrite trips_cons. cbn [concat]. now rewrite !app_length, map_length, IH. Qed.
Lemma trips_In {A} (cols : list (list (nat * A))) : forall s t, In t (trips s cols) ->
  (s <= snd (fst t) < s + length cols)%nat /\ exists c, In c cols /\ In (fst (fst t), snd t) c.
Proof.
  induction cols as [|c l IH]; intros s t; [easy|]. rewrite trips_cons, in_app_iff. intros [H|H].
  - apply in_map_iff in H. destruct H as ([i x] & <- & H). cbn. split; [lia|]. exists c. auto.
  - destruct (IH _ _ H) as [B (c' & H1 & H2)]. cbn [length]. split; [lia|]. exists c'. cbn. auto.
Qed.
Lemma triplet_numbers_eq cols : triplet_numbers cols = concat (map (fun t => [IZR (Z.of_nat (fst (fst t))); IZR (Z.of_nat (snd (fst t))); snd t]) (trips 0 cols)).
Proof.
  unfold triplet_numbers, trips. generalize (combine (seq 0 (length cols)) cols). intros l. induction l as [|[j c] l IH]; [reflexivity|].
  cbn [map concat fst snd]. rewrite map_app, concat_app, IH. f_equal. now rewrite map_map.
Qed.
Lemma columns_trips (round : R -> R) cols : 
  columns_of (length cols) (map (fun t => (fst (fst t), snd (fst t), round (snd t))) (trips 0 cols)) = map (map (fun e => (fst e, round (snd e)))) cols.
Proof.
  unfold columns_of.
  assert (G : forall cols s, map (fun j => map (fun e : nat * nat * R => (fst (fst e), snd e)) (filter (fun e => Nat.eqb (snd (fst e)) j)
     (map (fun t => (fst (fst t), snd (fst t), round (snd t))) (trips s cols)))) (seq s (length cols)) = map (map (fun e => (fst e, round (snd e)))) cols).
  { clear cols. induction cols as [|c l IH]; intros s; [reflexivity|]. rewrite trips_cons. cbn [length seq map]. f_equal.
    - rewrite map_app, filter_app, map_app.
      assert (E : filter (fun e : nat * nat * R => Nat.eqb (snd (fst e)) s) (map (fun t => (fst (fst t), snd (fst t), round (snd t))) (trips (S s) l)) = []).
      { assert (H : forall t, In t (map (fun t => (fst (fst t), snd (fst t), round (snd t))) (trips (S s) l)) -> snd (fst t) <> s).
        { intros t Ht. apply in_map_iff in Ht. destruct Ht as (t' & <- & Ht). apply trips_In in Ht. cbn. lia. }
        revert H. generalize (map (fun t => (fst (fst t), snd (fst t), round (snd t))) (trips (S s) l)). intros m H. induction m as [|t m IHm]; [reflexivity|].
        cbn [filter]. destruct (Nat.eqb_spec (snd (fst t)) s) as [E|_]; [now apply (H t (or_introl eq_refl)) in E|]. apply IHm. intros; apply H; now right. }
      rewrite E. cbn [map]. rewrite app_nil_r, map_map. cbn [fst snd]. clear. induction c as [|[i x] c IH]; [reflexivity|]. cbn [map filter fst snd]. rewrite Nat.eqb_refl. cbn [map fst snd]. now rewrite IH.
    - rewrite <- (IH (S s)). apply map_ext_in. intros j Hj. apply in_seq in Hj. rewrite map_app, filter_app, map_app, map_map.
      assert (E : filter (fun e : nat * nat * R => Nat.eqb (snd (fst e)) j) (map (fun x => (fst (fst (fst x, s, snd x)), snd (fst (fst x, s, snd x)), round (snd (fst x, s, snd x)))) c) = []).
      { clear -Hj. induction c as [|[i x] c IH]; [reflexivity|]. cbn [map filter fst snd]. destruct (Nat.eqb_spec s j); [lia|exact IH]. }
      now rewrite E. }
  apply G.
Qed.
