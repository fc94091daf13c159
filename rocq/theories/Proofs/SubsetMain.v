(** Lemmas for C83. *)
From Coq Require Import String Ascii List ZArith Bool Arith Lia.
From Verif Require Import Model.Base Model.SubsetDim Spec.IndexSpec Spec.SubsetSpec Proofs.IndexMain Proofs.SubexprMain.
Import ListNotations.
Local Open Scope string_scope.
Notation length := List.length.

(** Reading the text. *)
Lemma app_cons c s t : String c s ++ t = String c (s ++ t). Proof. reflexivity. Qed.
Lemma commas_S k : commas (S (S k)) = String "," (String " " (commas (S k))). Proof. reflexivity. Qed.
Lemma scan_commas k : forall acc s, scan acc (commas (S k) ++ s) = option_map (fun l => acc :: repeat " " k ++ l)%list (scan "" s).
Proof.
  induction k as [|k IH]; intros acc s.
  - cbn [commas repeat String.concat]. rewrite app_cons. cbn. reflexivity.
  - rewrite commas_S, !app_cons. cbn [scan Ascii.eqb Bool.eqb]. rewrite IH. cbn [append].
    destruct (scan "" s); reflexivity.
Qed.
Lemma args_blank k l : mapM arg_of (repeat " " k ++ l)%list = bind (mapM arg_of l) (fun r => Ok (repeat Missing k ++ r)%list).
Proof.
  induction k as [|k IH]; cbn [repeat app]; [destruct (mapM arg_of l); reflexivity|]. cbn [mapM].
  change (arg_of " ") with (Ok Missing). cbn [bind]. rewrite IH. destruct (mapM arg_of l); reflexivity.
Qed.
Definition tail_text (i d : nat) : string := commas_after i d ++ " " ++ ", drop = FALSE]".
Lemma scan_tail i d acc : (i <= d)%nat -> arg_of acc = Ok Indices -> arg_of (acc ++ " ") = Ok Indices ->
  exists l, scan acc (tail_text i d) = Some l /\ mapM arg_of l = Ok (Indices :: repeat Missing (d - i) ++ [NoDrop])%list.
Proof.
  intros H A A'. unfold tail_text, commas_after. destruct (Nat.ltb_spec i d) as [L|L].
  - destruct (d - i)%nat as [|k] eqn:E; [lia|]. rewrite scan_commas. cbn [append scan Ascii.eqb Bool.eqb option_map].
    eexists. split; [reflexivity|]. cbn [mapM]. rewrite A. cbn [bind]. rewrite args_blank.
    change (mapM arg_of [" "; " drop = FALSE"]) with (Ok [Missing; NoDrop]). cbn [bind]. do 2 f_equal.
    clear. induction k as [|k IH]; [reflexivity|]. cbn [repeat app]. f_equal. exact IH.
  - replace (d - i)%nat with O by lia. cbn [append scan Ascii.eqb Bool.eqb option_map]. eexists. split; [reflexivity|].
    cbn [mapM]. rewrite A'. reflexivity.
Qed.
Lemma text_shape i d : expr_text i d = String "x" (String "[" (String " " (commas_before i ++ " indices " ++ tail_text i d))).
Proof. unfold expr_text, tail_text. cbn [String.concat append]. reflexivity. Qed.
Lemma parse_main i d : (1 <= i <= d)%nat ->
  parse_text (expr_text i d) = Ok (repeat Missing (i - 1) ++ Indices :: repeat Missing (d - i) ++ [NoDrop])%list.
Proof.
  intros [H1 H2]. rewrite text_shape. unfold parse_text. cbn [scan Ascii.eqb Bool.eqb append].
  unfold commas_before. destruct (Nat.ltb_spec 1 i) as [L|L].
  - destruct (i - 1)%nat as [|k] eqn:E; [lia|]. rewrite scan_commas. cbn [append scan Ascii.eqb Bool.eqb].
    destruct (scan_tail i d " indices " H2 eq_refl eq_refl) as (l & E1 & E2). rewrite E1. cbn [option_map].
    change (" " :: repeat " " k ++ l)%list with (repeat " " (S k) ++ l)%list. rewrite args_blank, E2. reflexivity.
  - replace (i - 1)%nat with O by lia. cbn [append scan Ascii.eqb Bool.eqb].
    destruct (scan_tail i d "  indices " H2 eq_refl eq_refl) as (l & E1 & E2). rewrite E1, E2. reflexivity.
Qed.

(** Arrays. *)
Definition pick (r : list Z) (j : Z) : Z := nth (Z.to_nat (j - 1)) r 0%Z.
Definition picks (rows : list (list Z)) (t : list Z) : list Z := map (fun rj => pick (fst rj) (snd rj)) (combine rows t).
Definition sizes (rows : list (list Z)) : list Z := map (fun r => Z.of_nat (length r)) rows.
Lemma pick_upto r : map (pick r) (upto (Z.of_nat (length r))) = r.
Proof.
  unfold upto. rewrite Nat2Z.id, map_map. rewrite <- seq_shift, map_map. apply nth_ext with (d := 0%Z) (d' := 0%Z); [now rewrite map_length, seq_length|].
  intros k K. rewrite map_length, seq_length in K. rewrite (nth_indep _ 0%Z (pick r (Z.of_nat (S O)))) by (rewrite map_length, seq_length; exact K).
  rewrite (map_nth (fun x => pick r (Z.of_nat (S x))) (seq 0 (length r)) O k), seq_nth by exact K. unfold pick. f_equal. lia.
Qed.
Lemma combos_grid rows : combos rows = map (picks rows) (grid (sizes rows)).
Proof.
  induction rows as [|r rows IH]; [reflexivity|]. cbn [combos sizes map grid]. fold (sizes rows). rewrite IH, concat_map, !map_map. f_equal.
  apply map_ext. intros t. rewrite map_map. unfold picks at 2. cbn [combine map fst snd]. fold (picks rows t).
  rewrite <- (pick_upto r) at 1. now rewrite map_map.
Qed.
Lemma offset_place dims t : offset dims t = place dims t.
Proof. reflexivity. Qed.
Lemma within_nth_error dims t : within dims t -> nth_error (grid dims) (Z.to_nat (offset dims t)) = Some t.
Proof.
  intros W. rewrite offset_place. pose proof (place_range dims t W) as B. pose proof (grid_length dims (within_pos dims t W)) as G.
  rewrite (nth_error_nth' _ []) by lia. now rewrite grid_place.
Qed.
Lemma nth_error_map_some {A B} (f : A -> B) l k a : nth_error l k = Some a -> nth_error (map f l) k = Some (f a).
Proof. intros H. now rewrite nth_error_map, H. Qed.

Section Main.
Context {A : Type}.
Variable na : A.
Definition in_bounds (dims : list Z) (rows : list (list Z)) : Prop := Forall2 (fun d r => List.Forall (fun k => (1 <= k <= d)%Z) r) dims rows.
Lemma picks_within dims rows t : in_bounds dims rows -> within (sizes rows) t -> within dims (picks rows t).
Proof.
  intros H. revert t. induction H as [|d r dims rows Hr H IH]; intros t W; inversion W as [|n j l t' Hj W']; subst; [constructor|].
  unfold picks. cbn [combine map fst snd]. constructor; [|now apply IH]. rewrite Forall_forall in Hr. apply Hr. apply nth_In. lia.
Qed.
Lemma bounds_test dims rows : length rows = length dims ->
  forallb (fun dr => forallb (fun k => Z.leb 1 k && Z.leb k (fst dr)) (snd dr)) (combine dims rows) = true <-> in_bounds dims rows.
Proof.
  revert rows. induction dims as [|d dims IH]; intros [|r rows] L; try discriminate L; [split; [constructor|reflexivity]|].
  injection L as L. cbn [combine forallb fst snd]. rewrite andb_true_iff, (IH rows L), forallb_forall. split.
  - intros [H1 H2]. constructor; [|exact H2]. apply Forall_forall. intros k K. specialize (H1 k K). apply andb_true_iff in H1.
    destruct H1 as [X Y]. apply Z.leb_le in X. apply Z.leb_le in Y. now split.
  - intros H. inversion H as [|? ? ? ? H1 H2]; subst. split; [|exact H2]. intros k K. rewrite Forall_forall in H1. specialize (H1 k K).
    apply andb_true_iff. split; apply Z.leb_le; lia.
Qed.
Lemma array_main (x : rarray A) indices args : length args = length (ar_dims x) -> is_array (ar_dims x) (ar_data x) ->
  let rows := map (fun da => chosen indices (fst da) (snd da)) (combine (ar_dims x) args) in
  in_bounds (ar_dims x) rows -> exists y, array_subset na x indices args = Ok y /\ ar_dims y = sizes rows /\ is_array (ar_dims y) (ar_data y) /\
    forall t v, within (ar_dims y) t -> (element_is (ar_dims y) (ar_data y) t v <-> element_is (ar_dims x) (ar_data x) (picks rows t) v).
Proof.
  intros L IA rows HB. unfold array_subset. fold rows.
  assert (LR : length rows = length (ar_dims x)) by (unfold rows; rewrite map_length, combine_length, L; lia).
  rewrite (proj2 (bounds_test _ _ LR) HB). eexists. split; [reflexivity|]. cbn [ar_dims ar_data]. split; [reflexivity|].
  fold (sizes rows). rewrite combos_grid. split; [unfold is_array; now rewrite !map_length|]. intros t v W.
  pose proof (within_nth_error _ _ W) as E1. pose proof (picks_within _ _ _ HB W) as W2. pose proof (within_nth_error _ _ W2) as E2.
  set (g := fun t0 => nth (Z.to_nat (offset (ar_dims x) t0)) (ar_data x) na).
  assert (D : nth_error (ar_data x) (Z.to_nat (offset (ar_dims x) (picks rows t))) = Some (g (picks rows t))).
  { apply nth_error_nth'. unfold is_array in IA. rewrite IA. apply nth_error_Some. now rewrite E2. }
  assert (U : forall dims k k' u, nth_error (grid dims) k = Some u -> nth_error (grid dims) k' = Some u -> k = k').
  { intros dims k k' u K K'. apply (proj1 (NoDup_nth_error (grid dims)) (grid_NoDup dims)); [apply nth_error_Some; now rewrite K|congruence]. }
  rewrite map_map. unfold element_is. split; intros (k & K & V).
  - rewrite (nth_error_map_some _ _ _ _ K) in V. injection V as <-. exists (Z.to_nat (offset (ar_dims x) (picks rows t))). split; [exact E2|exact D].
  - rewrite (U _ _ _ _ K E2) in V. rewrite D in V. injection V as <-. exists (Z.to_nat (offset (sizes rows) t)). split; [exact E1|].
    exact (nth_error_map_some (fun t0 => g (picks rows t0)) _ _ _ E1).
Qed.
End Main.

(** The rows of the call of subset_dim. *)
Definition the_rows (indices dims : list Z) (a b : nat) : list (list Z) :=
  map (fun da => chosen indices (fst da) (snd da)) (combine dims (repeat Missing a ++ Indices :: repeat Missing b)%list).
Lemma missing_rows indices dims : List.Forall (fun d => (0 <= d)%Z) dims ->
  let rows := map (fun da => chosen indices (fst da) (snd da)) (combine dims (repeat Missing (length dims))) in
  sizes rows = dims /\ in_bounds dims rows /\ forall t, within dims t -> picks rows t = t.
Proof.
  induction dims as [|d dims IH]; intros P; cbn [length repeat combine map fst snd].
  - split; [reflexivity|]. split; [constructor|]. intros t W. inversion W. reflexivity.
  - inversion P as [|? ? P1 P2]; subst. specialize (IH P2). cbv zeta in IH. destruct IH as (I1 & I2 & I3). cbv zeta. split; [|split].
    + unfold sizes. cbn [map]. fold (sizes (map (fun da => chosen indices (fst da) (snd da)) (combine dims (repeat Missing (length dims))))).
      rewrite I1. f_equal. cbn [chosen]. rewrite map_length, seq_length. lia.
    + constructor; [|exact I2]. cbn [chosen]. apply Forall_forall. intros k K. apply in_map_iff in K. destruct K as (m & <- & M). apply in_seq in M. lia.
    + intros t W. inversion W as [|? j ? t' Hj W']; subst. unfold picks. cbn [combine map fst snd].
      f_equal; [|exact (I3 t' W')]. cbn [chosen]. unfold pick.
      rewrite (nth_indep _ 0%Z (Z.of_nat O)) by (rewrite map_length, seq_length; lia). rewrite map_nth, seq_nth by lia. lia.
Qed.
Lemma call_rows indices : forall a b dims, length dims = (a + S b)%nat -> List.Forall (fun d => (0 <= d)%Z) dims ->
  List.Forall (fun k => (1 <= k <= nth a dims 0)%Z) indices ->
  sizes (the_rows indices dims a b) = put a (Z.of_nat (length indices)) dims /\ in_bounds dims (the_rows indices dims a b) /\
  forall t, within (put a (Z.of_nat (length indices)) dims) t -> picks (the_rows indices dims a b) t = put a (nth (Z.to_nat (nth a t 0 - 1)) indices 0)%Z t.
Proof.
  induction a as [|a IH]; intros b [|d dims] L P K; try discriminate L.
  - inversion P as [|? ? P1 P2]; subst. injection L as L. subst b. destruct (missing_rows indices dims P2) as (I1 & I2 & I3).
    unfold the_rows. cbn [repeat app combine map fst snd chosen]. split; [|split].
    + unfold sizes. cbn [map]. unfold put. cbn [firstn skipn app]. f_equal. exact I1.
    + constructor; [exact K|exact I2].
    + unfold put. cbn [firstn skipn app]. intros t W. inversion W as [|? j ? t' Hj W']; subst. unfold picks. cbn [combine map fst snd nth skipn].
      f_equal. exact (I3 t' W').
  - inversion P as [|? ? P1 P2]; subst. assert (L' : length dims = (a + S b)%nat) by (cbn [length] in L; lia). cbn [nth] in K.
    destruct (IH b dims L' P2 K) as (I1 & I2 & I3).
    change (the_rows indices (d :: dims) (S a) b) with (chosen indices d Missing :: the_rows indices dims a b). 
    change (put (S a) (Z.of_nat (length indices)) (d :: dims)) with (d :: put a (Z.of_nat (length indices)) dims).
    split; [|split].
    + unfold sizes. cbn [map]. fold (sizes (the_rows indices dims a b)). rewrite I1. f_equal. cbn [chosen]. rewrite map_length, seq_length. lia.
    + constructor; [|exact I2]. cbn [chosen]. apply Forall_forall. intros k K'. apply in_map_iff in K'. destruct K' as (m & <- & M). apply in_seq in M. lia.
    + intros t W. inversion W as [|? j ? t' Hj W']; subst. unfold picks. cbn [combine map fst snd]. fold (picks (the_rows indices dims a b) t').
      rewrite (I3 t' W'). unfold put. cbn [firstn skipn app nth]. f_equal. cbn [chosen]. unfold pick.
      rewrite (nth_indep _ 0%Z (Z.of_nat O)) by (rewrite map_length, seq_length; lia). rewrite map_nth, seq_nth by lia. lia.
Qed.

Lemma filter_missing a b : filter is_index (repeat Missing a ++ Indices :: repeat Missing b ++ [NoDrop])%list = (repeat Missing a ++ Indices :: repeat Missing b)%list.
Proof.
  assert (F : forall k l, filter is_index (repeat Missing k ++ l)%list = (repeat Missing k ++ filter is_index l)%list).
  { induction k as [|k IH]; intros l; [reflexivity|]. cbn [repeat app filter is_index]. now rewrite IH. }
  rewrite F. cbn [filter is_index]. rewrite F. cbn [filter is_index]. now rewrite app_nil_r.
Qed.
Lemma not_dropped a b : forallb is_index (repeat Missing a ++ Indices :: repeat Missing b ++ [NoDrop])%list = false.
Proof.
  induction a as [|a IH]; cbn [repeat app forallb is_index andb]; [|exact IH]. induction b as [|b IH]; [reflexivity|]. cbn [repeat app forallb is_index andb]. exact IH.
Qed.
Section Calls.
Context {A : Type}.
Variable na : A.
Lemma call_two (x : rarray A) i indices : (1 <= i <= length (ar_dims x))%nat -> (2 <= length (ar_dims x))%nat ->
  subset_dim na x i indices = array_subset na x indices (repeat Missing (i - 1) ++ Indices :: repeat Missing (length (ar_dims x) - i))%list.
Proof.
  intros H T. unfold subset_dim. replace (Nat.eqb (length (ar_dims x)) 0) with false by (symmetry; apply Nat.eqb_neq; lia). cbn [andb].
  replace (Nat.ltb (length (ar_dims x)) i) with false by (symmetry; apply Nat.ltb_ge; lia). rewrite parse_main by exact H. cbn [bind].
  unfold eval_call. rewrite not_dropped, filter_missing. set (subs := (repeat Missing (i - 1) ++ Indices :: repeat Missing (length (ar_dims x) - i))%list).
  assert (L : length subs = length (ar_dims x)) by (unfold subs; rewrite app_length; cbn [length]; rewrite !repeat_length; lia).
  clearbody subs. destruct subs as [|a [|b subs]]; cbn [length] in L |- *; try lia. rewrite L, Nat.eqb_refl. match goal with |- bind ?o _ = _ => destruct o; reflexivity end.
Qed.
Lemma call_one (x : rarray A) n indices : ar_dims x = [n] -> subset_dim na x 1 indices = (v <- vector_subset na (ar_data x) indices ;; Ok (mkArray [Z.of_nat (length indices)] v)).
Proof.
  intros E. unfold subset_dim. rewrite E. cbn [length Nat.eqb andb Nat.ltb Nat.leb]. rewrite parse_main by lia. cbn [Nat.sub repeat app bind].
  unfold eval_call. cbn [filter forallb is_index chosen andb negb]. rewrite E. reflexivity.
Qed.
Lemma one_array (x : rarray A) n indices : ar_dims x = [n] -> List.Forall (fun k => (1 <= k <= n)%Z) indices ->
  (v <- vector_subset na (ar_data x) indices ;; Ok (mkArray [Z.of_nat (length indices)] v)) = array_subset na x indices [Indices].
Proof.
  intros E F. unfold vector_subset, array_subset. rewrite E. cbn [combine map fst snd chosen forallb].
  rewrite Forall_forall in F.
  replace (forallb (fun k => Z.leb 1 k) indices) with true by (symmetry; apply forallb_forall; intros k K; apply Z.leb_le, F, K).
  replace (forallb (fun k => Z.leb 1 k && Z.leb k n) indices) with true by (symmetry; apply forallb_forall; intros k K; apply andb_true_iff; split; apply Z.leb_le, F, K).
  cbn [andb bind]. f_equal. f_equal. cbn [combos map concat]. rewrite app_nil_r, map_map. apply map_ext. intros k. cbn [offset]. f_equal. f_equal. lia.
Qed.
Theorem selects (x : rarray A) i indices : (1 <= i <= length (ar_dims x))%nat -> List.Forall (fun d => (0 <= d)%Z) (ar_dims x) ->
  is_array (ar_dims x) (ar_data x) -> List.Forall (fun k => (1 <= k <= nth (i - 1) (ar_dims x) 0)%Z) indices ->
  exists y, subset_dim na x i indices = Ok y /\ ar_dims y = put (i - 1) (Z.of_nat (length indices)) (ar_dims x) /\
    is_array (ar_dims y) (ar_data y) /\
    forall t v, within (ar_dims y) t ->
      (element_is (ar_dims y) (ar_data y) t v <->
       element_is (ar_dims x) (ar_data x) (put (i - 1) (nth (Z.to_nat (nth (i - 1) t 0 - 1)) indices 0)%Z t) v).
Proof.
  intros H P IA K. set (args := (repeat Missing (i - 1) ++ Indices :: repeat Missing (length (ar_dims x) - i))%list).
  assert (E : subset_dim na x i indices = array_subset na x indices args).
  { destruct (Nat.le_gt_cases 2 (length (ar_dims x))) as [T|T]; [now apply call_two|].
    destruct (ar_dims x) as [|n [|n' l]] eqn:D; cbn [length] in H, T; try lia. assert (I : i = 1%nat) by lia. subst i.
    rewrite (call_one x n indices D). apply (one_array x n indices D). exact K. }
  rewrite E. destruct (call_rows indices (i - 1) (length (ar_dims x) - i) (ar_dims x) ltac:(lia) P K) as (R1 & R2 & R3).
  assert (L : length args = length (ar_dims x)) by (unfold args; rewrite app_length; cbn [length]; rewrite !repeat_length; lia).
  destruct (array_main na x indices args L IA R2) as (y & Y1 & Y2 & Y3 & Y4). exists y. split; [exact Y1|]. fold (the_rows indices (ar_dims x) (i - 1) (length (ar_dims x) - i)) in Y2, Y4.
  split; [rewrite Y2; exact R1|]. split; [exact Y3|]. intros t v W. pose proof (Y4 t v W) as G.
  rewrite Y2 in W. unfold args in W. change (map (fun da => chosen indices (fst da) (snd da)) (combine (ar_dims x) (repeat Missing (i - 1) ++ Indices :: repeat Missing (length (ar_dims x) - i))%list)) with (the_rows indices (ar_dims x) (i - 1) (length (ar_dims x) - i)) in W.
  rewrite R1 in W. rewrite <- (R3 t W). exact G.
Qed.
Theorem of_vector (data : list A) indices : List.Forall (fun k => (1 <= k)%Z) indices ->
  subset_dim na (mkArray [] data) 1 indices = Ok (mkArray [] (map (fun k => match nth_error data (Z.to_nat k - 1) with Some v => v | None => na end) indices)).
Proof.
  intros F. rewrite Forall_forall in F. unfold subset_dim, vector_subset. cbn [ar_dims ar_data length Nat.eqb andb].
  replace (forallb (fun k => Z.leb 1 k) indices) with true by (symmetry; apply forallb_forall; intros k K; apply Z.leb_le, F, K). cbn [bind]. do 2 f_equal.
  apply map_ext_in. intros k K. replace (Z.to_nat k - 1)%nat with (Z.to_nat (k - 1)) by (specialize (F k K); lia).
  destruct (nth_error data (Z.to_nat (k - 1))) as [v|] eqn:E; [now apply nth_error_nth|apply nth_overflow, nth_error_None, E].
Qed.
Theorem no_dimension (x : rarray A) i indices : (length (ar_dims x) < i)%nat -> ~ (ar_dims x = [] /\ i = 1%nat) -> subset_dim na x i indices = Throw RuntimeError.
Proof.
  intros H N. unfold subset_dim. destruct (Nat.eqb (length (ar_dims x)) 0 && Nat.eqb i 1) eqn:E.
  - exfalso. apply N. apply andb_true_iff in E. destruct E as [E1 E2]. apply Nat.eqb_eq in E1, E2. split; [now apply length_zero_iff_nil|exact E2].
  - replace (Nat.ltb (length (ar_dims x)) i) with true by (symmetry; apply Nat.ltb_lt; exact H). reflexivity.
Qed.
Theorem out_of_bounds (x : rarray A) i indices k : (1 <= i <= length (ar_dims x))%nat -> (2 <= length (ar_dims x))%nat ->
  In k indices -> (nth (i - 1) (ar_dims x) 0 < k)%Z -> subset_dim na x i indices = Throw RuntimeError.
Proof.
  intros H T I K. rewrite call_two by assumption. unfold array_subset.
  match goal with |- (if ?b then _ else _) = _ => destruct b eqn:E end; [exfalso|reflexivity].
  rewrite forallb_forall in E. set (rows := map (fun da => chosen indices (fst da) (snd da)) (combine (ar_dims x) (repeat Missing (i - 1) ++ Indices :: repeat Missing (length (ar_dims x) - i))%list)) in E.
  assert (IN : In (nth (i - 1) (ar_dims x) 0%Z, indices) (combine (ar_dims x) rows)).
  { unfold rows. assert (G : forall a b dims, length dims = (a + S b)%nat -> In (nth a dims 0%Z, indices) (combine dims (the_rows indices dims a b))).
    { induction a as [|a IH]; intros b [|d dims] L; try discriminate L; [left; reflexivity|].
      change (the_rows indices (d :: dims) (S a) b) with (chosen indices d Missing :: the_rows indices dims a b). right. apply IH. cbn [length] in L. lia. }
    apply G. lia. }
  specialize (E _ IN). cbn [fst snd] in E. rewrite forallb_forall in E. specialize (E k I). apply andb_true_iff in E. destruct E as [_ E]. apply Z.leb_le in E. lia.
Qed.
Theorem one_dimension (data : list A) indices : List.Forall (fun k => (1 <= k)%Z) indices ->
  subset_dim na (mkArray [Z.of_nat (length data)] data) 1 indices =
  Ok (mkArray [Z.of_nat (length indices)] (map (fun k => match nth_error data (Z.to_nat k - 1) with Some v => v | None => na end) indices)).
Proof.
  intros F. rewrite (call_one (mkArray [Z.of_nat (length data)] data) (Z.of_nat (length data)) indices eq_refl). cbn [ar_data].
  pose proof (of_vector data indices F) as G. unfold subset_dim in G. cbn [ar_dims ar_data length Nat.eqb andb] in G.
  destruct (vector_subset na data indices); try discriminate G. cbn [bind] in G |- *. injection G as ->. reflexivity.
Qed.
End Calls.
