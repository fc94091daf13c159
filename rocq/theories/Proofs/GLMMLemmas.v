From Coq Require Import List Reals ZArith Lia Lra Arith Bool.
From Coquelicot Require Import Coquelicot.
From Verif Require Import Model.Base Model.Family Model.GLMM Spec.Numbers Spec.FamilySpec Spec.GLMMSpec
  Proofs.ListLemmas Proofs.FamilyLemmas Proofs.FamilyMain.
Import ListNotations.
Local Open Scope R_scope.

(** * Sums *)
Lemma sumR_ext n f g : (forall i, (i < n)%nat -> f i = g i) -> sumR n f = sumR n g.
Proof.
  intros H. unfold sumR. f_equal. apply map_ext_in. intros i Hi. apply H. apply in_seq in Hi. lia.
Qed.

Lemma sumR_S n f : sumR (S n) f = f 0%nat + sumR n (fun i => f (S i)).
Proof. unfold sumR. simpl. f_equal. now rewrite <- seq_shift, map_map. Qed.

Lemma sumR_plus n f g : sumR n (fun i => f i + g i) = sumR n f + sumR n g.
Proof.
  unfold sumR. induction (seq 0 n) as [|i l IH]; simpl; [ring|]. rewrite IH. ring.
Qed.

Lemma sumR_scal n c f : sumR n (fun i => c * f i) = c * sumR n f.
Proof.
  unfold sumR. induction (seq 0 n) as [|i l IH]; simpl; [ring|]. rewrite IH. ring.
Qed.

Lemma sumR_single n j f : (j < n)%nat -> (forall i, (i < n)%nat -> i <> j -> f i = 0) -> sumR n f = f j.
Proof.
  revert j f. induction n as [|n IH]; intros j f Hj H; [lia|]. rewrite sumR_S. destruct j as [|j].
  - rewrite (sumR_ext n _ (fun _ => 0 * 0)) by (intros; rewrite H by lia; ring).
    rewrite sumR_scal. ring.
  - rewrite (H 0%nat), (IH j (fun i => f (S i))) by (lia || (intros; apply H; lia)). ring.
Qed.

Lemma sumR_derive n (f : nat -> R -> R) (f' : nat -> R) t :
  (forall i, (i < n)%nat -> is_derive (f i) t (f' i)) ->
  is_derive (fun u => sumR n (fun i => f i u)) t (sumR n f').
Proof.
  revert f f'. induction n as [|n IH]; intros f f' H.
  - apply (is_derive_const (0:R) t).
  - rewrite sumR_S.
    apply (is_derive_R_ext (fun u => f 0%nat u + sumR n (fun i => f (S i) u)) _ t
             (f' 0%nat + sumR n (fun i => f' (S i)))).
    + intros u. symmetry. apply sumR_S.
    + reflexivity.
    + apply (is_derive_plus (f 0%nat) (fun u => sumR n (fun i => f (S i) u))).
      * apply H. lia.
      * apply IH. intros. apply H. lia.
Qed.

(** * The checked vector operations *)
Lemma nsum_fold (l : list R) : nsum Rnum l = fold_right Rplus 0 l.
Proof.
  unfold nsum; cbn [nadd nZ Rnum N].
  enough (forall a, fold_left Rplus l a = a + fold_right Rplus 0 l) as H by (rewrite H; ring).
  induction l as [|x l IH]; intros a; simpl; [ring|]. rewrite IH. ring.
Qed.

Lemma dot_sum (a b : list R) : length a = length b ->
  dot Rnum a b = Ok (sumR (length a) (fun i => nth i a 0 * nth i b 0)).
Proof.
  unfold dot. revert b. induction a as [|x a IH]; intros [|y b] H; simpl in H; try discriminate.
  - cbn [zip2 bind]. rewrite nsum_fold. reflexivity.
  - specialize (IH b ltac:(lia)). cbn [zip2]. destruct (zip2 (nmul Rnum) a b) as [r| | |] eqn:E;
      cbn [bind] in *; try discriminate.
    injection IH as IH. f_equal. cbn [length]. rewrite sumR_S. cbn [nth].
    rewrite nsum_fold in *. cbn [fold_right]. rewrite IH. reflexivity.
Qed.

Lemma dot_inv (a b : list R) v : dot Rnum a b = Ok v -> length a = length b.
Proof.
  unfold dot. intros H. destruct (zip2 (nmul Rnum) a b) eqn:E; cbn [bind] in H; try discriminate.
  exact (zip2_Ok_length _ _ _ _ E).
Qed.

Lemma mapM_all {A B} (f : A -> outcome B) (g : A -> B) l : (forall x, In x l -> f x = Ok (g x)) ->
  mapM f l = Ok (map g l).
Proof.
  induction l as [|x l IH]; intros H; simpl; [reflexivity|].
  rewrite (H x (or_introl eq_refl)). cbn [bind]. rewrite IH by (intros; apply H; now right). reflexivity.
Qed.

Lemma vec_get_nth {A} (l : list A) i d : (i < length l)%nat -> vec_get l i = Ok (nth i l d).
Proof.
  intros H. unfold vec_get. rewrite (nth_error_nth' l d H). reflexivity.
Qed.

Lemma column_ok (m : list (list R)) k n : (forall row, In row m -> length row = n) -> (k < n)%nat ->
  column Rnum m k = Ok (map (fun row => nth k row 0) m).
Proof.
  intros H Hk. unfold column. apply mapM_all. intros row Hr. apply vec_get_nth.
  change (N Rnum) with R. rewrite (H row Hr). exact Hk.
Qed.

Lemma matvec_ok (m : list (list R)) (v : list R) : (forall row, In row m -> length row = length v) ->
  matvec Rnum m v = Ok (map (fun row => sumR (length v) (fun i => nth i row 0 * nth i v 0)) m).
Proof.
  intros H. unfold matvec. apply mapM_all. intros row Hr. rewrite dot_sum by (apply H, Hr).
  now rewrite (H row Hr).
Qed.

Lemma nth_map' {A B} (f : A -> B) l i d da : (i < length l)%nat -> nth i (map f l) d = f (nth i l da).
Proof. intros. rewrite (nth_indep _ d (f da)) by (rewrite map_length; auto). apply map_nth. Qed.

Lemma nth_map_seq {B} (f : nat -> B) n i d : (i < n)%nat -> nth i (map f (seq 0 n)) d = f i.
Proof.
  intros H. rewrite (nth_map' f _ i d 0%nat) by (rewrite seq_length; exact H). now rewrite seq_nth.
Qed.

(** * Filling in theta *)
Definition entries_from (j0 : nat) (cols : list (list (nat * R))) : list (nat * nat) :=
  concat (map (fun jc => map (fun e => (fst e, fst jc)) (snd jc))
              (combine (seq j0 (length cols)) cols)).

Lemma entries_cons j0 c cols :
  entries_from j0 (c :: cols) = map (fun e => (fst e, j0)) c ++ entries_from (S j0) cols.
Proof. reflexivity. Qed.

Definition tval (theta : list R) (i : Z) : R := nth (Z.to_nat i) theta 0.
(** The values put on the stored entries. *)
Fixpoint put (col : list (nat * R)) (vals : list R) : list (nat * R) :=
  match col, vals with
  | e :: col', v :: vals' => (fst e, v) :: put col' vals'
  | _, _ => []
  end.
Fixpoint puts (cols : list (list (nat * R))) (vals : list R) : list (list (nat * R)) :=
  match cols with
  | [] => []
  | c :: cols' => put c (firstn (length c) vals) :: puts cols' (skipn (length c) vals)
  end.

Definition ok_index (theta : list R) (i : Z) : Prop := (0 <= i < Z.of_nat (length theta))%Z.

Lemma theta_at_ok theta Lind k : (k < length Lind)%nat -> ok_index theta (nth k Lind 0%Z) ->
  theta_at Rnum theta Lind k = Ok (tval theta (nth k Lind 0%Z)).
Proof.
  intros Hk Hi. unfold theta_at, ok_index, tval in *. rewrite (vec_get_nth Lind k 0%Z) by auto.
  cbn [bind]. destruct (Z.ltb_spec (nth k Lind 0%Z) 0); [lia|]. apply vec_get_nth.
  change (N Rnum) with R. lia.
Qed.

Lemma theta_at_bad theta Lind k : (k < length Lind)%nat -> ~ ok_index theta (nth k Lind 0%Z) ->
  theta_at Rnum theta Lind k = UB.
Proof.
  intros Hk Hi. unfold theta_at, ok_index in *. rewrite (vec_get_nth Lind k 0%Z) by auto.
  cbn [bind]. destruct (Z.ltb_spec (nth k Lind 0%Z) 0); [reflexivity|]. unfold vec_get.
  change (N Rnum) with R. destruct (nth_error theta _) eqn:E; [|reflexivity].
  exfalso. apply Hi. assert (nth_error theta (Z.to_nat (nth k Lind 0%Z)) <> None) by congruence.
  apply nth_error_Some in H0. lia.
Qed.

Lemma firstn_skipn_nth {A} (l : list A) k n d : (k < n)%nat -> (n <= length l)%nat ->
  skipn k l = nth k l d :: skipn (S k) l.
Proof.
  revert k n. induction l as [|x l IH]; intros k n Hk Hn; simpl in Hn; [lia|].
  destruct k as [|k]; [reflexivity|]. destruct n as [|n]; [lia|].
  cbn [skipn nth]. rewrite (IH k n) by lia. reflexivity.
Qed.

Lemma fill_column_ok theta Lind : forall (col : list (nat * R)) k, (k + length col <= length Lind)%nat ->
  (forall t, (k <= t < k + length col)%nat -> ok_index theta (nth t Lind 0%Z)) ->
  fill_column Rnum theta Lind k col = Ok (put col (firstn (length col) (skipn k (map (tval theta) Lind)))).
Proof.
  induction col as [|[r v] col IH]; intros k Hk H; [reflexivity|].
  cbn [fill_column length] in *. rewrite theta_at_ok by (try apply H; lia). cbn [bind].
  replace (k + 1)%nat with (S k) by lia.
  rewrite IH by (try (intros; apply H); lia). cbn [bind].
  rewrite (firstn_skipn_nth (map (tval theta) Lind) k (length Lind) 0) by (rewrite ?map_length; lia).
  cbn [firstn put fst]. rewrite (nth_map' (tval theta) Lind k 0 0%Z) by lia. reflexivity.
Qed.

Lemma fill_column_bad theta Lind : forall (col : list (nat * R)) k t, (k + length col <= length Lind)%nat ->
  (k <= t < k + length col)%nat -> ~ ok_index theta (nth t Lind 0%Z) ->
  fill_column Rnum theta Lind k col = UB.
Proof.
  induction col as [|[r v] col IH]; intros k t Hk Ht H; cbn [fill_column length] in *; [lia|].
  assert (D : ok_index theta (nth k Lind 0%Z) \/ ~ ok_index theta (nth k Lind 0%Z))
    by (unfold ok_index; lia).
  destruct D as [D|D]; [|rewrite theta_at_bad by (auto; lia); reflexivity].
  rewrite theta_at_ok by (auto; lia). cbn [bind].
  assert (t <> k) by (intros ->; auto).
  rewrite (IH (k + 1)%nat t) by (auto; lia). reflexivity.
Qed.

Lemma skipn_add {A} (l : list A) a b : skipn a (skipn b l) = skipn (b + a) l.
Proof. revert l. induction b as [|b IH]; intros l; [reflexivity|]. destruct l; [now rewrite !skipn_nil|]. apply IH. Qed.

Definition total (cols : list (list (nat * R))) : nat := length (concat cols).

Lemma fill_columns_ok theta Lind : forall (cols : list (list (nat * R))) k, (k + total cols <= length Lind)%nat ->
  (forall t, (k <= t < k + total cols)%nat -> ok_index theta (nth t Lind 0%Z)) ->
  fill_columns Rnum theta Lind k cols = Ok (puts cols (skipn k (map (tval theta) Lind))).
Proof.
  induction cols as [|c cols IH]; intros k Hk H; [reflexivity|].
  unfold total in *. cbn [fill_columns puts concat] in *. rewrite app_length in *.
  rewrite fill_column_ok by (try (intros; apply H); lia). cbn [bind].
  change (N Rnum) with R in *. rewrite IH by (try (intros; apply H); lia). cbn [bind].
  rewrite skipn_add. reflexivity.
Qed.

Lemma fill_columns_bad theta Lind : forall (cols : list (list (nat * R))) k t, (k + total cols <= length Lind)%nat ->
  (k <= t < k + total cols)%nat -> ~ ok_index theta (nth t Lind 0%Z) ->
  fill_columns Rnum theta Lind k cols = UB.
Proof.
  induction cols as [|c cols IH]; intros k t Hk Ht H; unfold total in *;
    cbn [fill_columns concat] in *; [simpl in Ht; lia|].
  rewrite app_length in *. change (N Rnum) with R in *.
  destruct (fill_column Rnum theta Lind k c) as [c'| | |] eqn:E; cbn [bind].
  - rewrite (IH (k + length c)%nat t); auto; try lia.
    assert (~ (k <= t < k + length c)%nat); [|lia]. intros G.
    rewrite (fill_column_bad theta Lind c k t) in E by (auto; lia). discriminate.
  - exfalso. clear -E. revert k E. induction c as [|[r v] c IHc]; intros k E; cbn [fill_column] in E; [discriminate|].
    unfold theta_at, vec_get in E. destruct (nth_error Lind k) as [i|]; cbn [bind] in E; [|discriminate].
    destruct (i <? 0)%Z; [discriminate|]. change (N Rnum) with R in E.
    destruct (nth_error theta _); cbn [bind] in E; [|discriminate].
    destruct (fill_column Rnum theta Lind (k + 1) c) eqn:E2; cbn [bind] in E; try discriminate.
    eapply IHc. rewrite E2. injection E as ->. reflexivity.
  - reflexivity.
  - exfalso. clear -E. revert k E. induction c as [|[r v] c IHc]; intros k E; cbn [fill_column] in E; [discriminate|].
    unfold theta_at, vec_get in E. destruct (nth_error Lind k) as [i|]; cbn [bind] in E; [|discriminate].
    destruct (i <? 0)%Z; [discriminate|]. change (N Rnum) with R in E.
    destruct (nth_error theta _); cbn [bind] in E; [|discriminate].
    destruct (fill_column Rnum theta Lind (k + 1) c) eqn:E2; cbn [bind] in E; try discriminate.
    eapply IHc. exact E2.
Qed.

(** * The filled matrix against the specification *)
Definition at_place (r j : nat) (pv : nat * nat * R) : bool :=
  andb (Nat.eqb (fst (fst pv)) r) (Nat.eqb (snd (fst pv)) j).
Definition place_sum (r j : nat) (l : list (nat * nat * R)) : R :=
  fold_right Rplus 0 (map snd (filter (at_place r j) l)).

Lemma place_sum_app r j l1 l2 : place_sum r j (l1 ++ l2) = place_sum r j l1 + place_sum r j l2.
Proof.
  unfold place_sum. rewrite filter_app, map_app.
  induction (map snd (filter (at_place r j) l1)) as [|a l IH]; simpl; [ring|]. rewrite IH. ring.
Qed.

Lemma combine_app' {A B} (a1 a2 : list A) (b : list B) :
  combine (a1 ++ a2) b = combine a1 (firstn (length a1) b) ++ combine a2 (skipn (length a1) b).
Proof.
  revert b. induction a1 as [|x a1 IH]; intros [|y b]; simpl; auto.
  - now rewrite combine_nil.
  - now rewrite IH.
Qed.

Lemma place_sum_col r j j0 (c : list (nat * R)) : forall vals, length vals = length c ->
  place_sum r j (combine (map (fun e => (fst e, j0)) c) vals) =
  if Nat.eqb j0 j then fold_right Rplus 0 (map snd (filter (fun e => Nat.eqb (fst e) r) (put c vals))) else 0.
Proof.
  unfold place_sum. induction c as [|[r' v'] c IH]; intros [|v vals] H; simpl in H; try discriminate.
  - simpl. now destruct (Nat.eqb j0 j).
  - cbn [map combine filter fst put]. unfold at_place at 1; cbn [fst snd].
    specialize (IH vals ltac:(lia)).
    destruct (Nat.eqb j0 j) eqn:Ej; [rewrite andb_true_r|rewrite andb_false_r]; [|exact IH].
    destruct (Nat.eqb r' r); [|exact IH]. cbn [map fold_right snd]. now rewrite IH.
Qed.

Lemma place_sum_other r j (cols : list (list (nat * R))) : forall j0 vals, (j < j0)%nat ->
  length vals = total cols -> place_sum r j (combine (entries_from j0 cols) vals) = 0.
Proof.
  induction cols as [|c cols IH]; intros j0 vals Hj Hv; [reflexivity|].
  unfold total in *. cbn [concat] in Hv. rewrite app_length in Hv.
  rewrite entries_cons, combine_app', place_sum_app, map_length.
  rewrite IH by (try rewrite skipn_length; lia).
  rewrite place_sum_col by (rewrite firstn_length; lia).
  destruct (Nat.eqb_spec j0 j); [lia|ring].
Qed.

Lemma place_sum_puts r (cols : list (list (nat * R))) : forall j0 j vals, length vals = total cols ->
  (j < length cols)%nat ->
  place_sum r (j0 + j) (combine (entries_from j0 cols) vals) =
  fold_right Rplus 0 (map snd (filter (fun e => Nat.eqb (fst e) r) (nth j (puts cols vals) []))).
Proof.
  induction cols as [|c cols IH]; intros j0 j vals Hv Hj; simpl in Hj; [lia|].
  unfold total in *. cbn [concat] in Hv. rewrite app_length in Hv.
  rewrite entries_cons, combine_app', place_sum_app, map_length.
  rewrite place_sum_col by (rewrite firstn_length; lia). cbn [puts]. destruct j as [|j].
  - rewrite Nat.add_0_r, Nat.eqb_refl. cbn [nth].
    rewrite place_sum_other by (try (unfold total; rewrite skipn_length); lia). ring.
  - destruct (Nat.eqb_spec j0 (j0 + S j)); [lia|]. cbn [nth].
    replace (j0 + S j)%nat with (S j0 + j)%nat by lia.
    rewrite IH by (try rewrite skipn_length; lia). ring.
Qed.

Lemma Lam_place_sum d theta r j :
  Lam d theta r j = place_sum r j (combine (places (gd_Lambdat _ d)) (map (tval theta) (gd_Lind _ d))).
Proof.
  unfold Lam, place_sum. generalize (gd_Lind _ d) as Li. induction (places (gd_Lambdat _ d)) as [|p ps IH];
    intros [|i Li]; simpl; try reflexivity.
  unfold at_place; cbn [fst snd]. destruct (andb (Nat.eqb (fst p) r) (Nat.eqb (snd p) j)); [|apply IH].
  cbn [map fold_right snd]. f_equal. apply IH.
Qed.

Lemma places_total (s : sparse Rnum) : length (places s) = total (sp_cols _ s).
Proof.
  unfold places. change (length (entries_from 0 (sp_cols _ s)) = total (sp_cols _ s)).
  unfold total. generalize 0%nat. induction (sp_cols _ s) as [|c cols IH]; intros j0; [reflexivity|].
  change (N Rnum) with R. rewrite entries_cons. cbn [concat]. rewrite !app_length, map_length. f_equal. apply IH.
Qed.

Lemma puts_length cols vals : length (puts cols vals) = length cols.
Proof. revert vals. induction cols; intros; simpl; auto. Qed.

Lemma sp_entry_Lam d theta r j : shaped d -> (j < length (sp_cols _ (gd_Lambdat _ d)))%nat ->
  sp_entry Rnum (mkSparse Rnum (sp_rows _ (gd_Lambdat _ d))
     (puts (sp_cols _ (gd_Lambdat _ d)) (map (tval theta) (gd_Lind _ d)))) r j = Lam d theta r j.
Proof.
  intros Sh Hj. unfold sp_entry. rewrite nsum_fold, Lam_place_sum.
  change (places (gd_Lambdat _ d)) with (entries_from 0 (sp_cols _ (gd_Lambdat _ d))).
  change j with (0 + j)%nat at 2. rewrite place_sum_puts; auto.
  rewrite map_length, (sh_Lind _ Sh). apply places_total.
Qed.

(** The product Lambda^T(theta) Z^T. *)
Definition LZmat (d : glmm_data Rnum) (theta : list R) : list (list R) :=
  map (fun r => map (fun k => LZ d theta r k) (seq 0 (gd_numObs _ d))) (seq 0 (length (gd_items _ d))).

Lemma in_range_ok theta Lind : in_range (length theta) Lind <->
  forall t, (t < length Lind)%nat -> ok_index theta (nth t Lind 0%Z).
Proof.
  unfold in_range, ok_index. split.
  - intros H t Ht. apply H, nth_In, Ht.
  - intros H i Hi. destruct (In_nth _ _ 0%Z Hi) as [t [Ht <-]]. apply H, Ht.
Qed.

Lemma compute_LZ_ok d theta : shaped d -> in_range (length theta) (gd_Lind _ d) ->
  compute_LambdatThetaZt Rnum d theta = Ok (LZmat d theta).
Proof.
  intros Sh Hr. pose proof (proj1 (in_range_ok _ _) Hr) as Hi. unfold compute_LambdatThetaZt.
  rewrite fill_columns_ok.
  2:{ change (N Rnum) with R. rewrite (sh_Lind _ Sh), places_total. simpl. lia. }
  2:{ change (N Rnum) with R. rewrite <- places_total, <- (sh_Lind _ Sh). intros t Ht. apply Hi. lia. }
  cbn [bind skipn]. unfold sp_mul; cbn [sp_rows sp_cols]. rewrite (sh_rows _ Sh).
  unfold LZmat. apply mapM_all. intros r _. apply mapM_all. intros k Hk. apply in_seq in Hk.
  rewrite (column_ok _ k (gd_numObs _ d)) by (try apply (sh_Ztrow _ Sh); lia). cbn [bind].
  rewrite puts_length, dot_sum by (rewrite !map_length, seq_length; symmetry; apply (sh_Zt _ Sh)).
  rewrite map_length, seq_length. unfold LZ. rewrite (sh_Zt _ Sh). refine (f_equal (@Ok R) _). apply sumR_ext.
  intros j Hj. rewrite nth_map_seq by exact Hj. rewrite <- (sh_rows _ Sh).
  etransitivity; [apply f_equal2; [apply sp_entry_Lam; auto|reflexivity]|].
  f_equal. unfold at2. apply (nth_map' (fun row => nth k row 0)). change (N Rnum) with R in *.
  exact (eq_ind_r (fun n => (j < n)%nat) Hj (sh_Zt _ Sh)).
Qed.

Lemma compute_LZ_bad d theta : shaped d -> ~ in_range (length theta) (gd_Lind _ d) ->
  compute_LambdatThetaZt Rnum d theta = UB.
Proof.
  intros Sh Hr. unfold compute_LambdatThetaZt.
  assert (exists t, (t < length (gd_Lind _ d))%nat /\ ~ ok_index theta (nth t (gd_Lind _ d) 0%Z)) as [t [Ht Hb]].
  { clear Sh. unfold in_range in Hr. induction (gd_Lind _ d) as [|i Li IH]; [exfalso; apply Hr; intros ? []|].
    assert (D : ok_index theta i \/ ~ ok_index theta i) by (unfold ok_index; lia).
    destruct D as [D|D]; [|exists 0%nat; simpl; split; [lia|auto]].
    destruct IH as [t [Ht Hb]]; [|exists (S t); simpl; split; [lia|auto]].
    intros G. apply Hr. intros z [<-|Hz]; [exact D|apply G, Hz]. }
  rewrite (fill_columns_bad theta _ _ 0 t); [reflexivity| | |exact Hb].
  - change (N Rnum) with R. rewrite (sh_Lind _ Sh), places_total. simpl. lia.
  - change (N Rnum) with R. rewrite <- places_total, <- (sh_Lind _ Sh). lia.
Qed.

Lemma compute_XB_ok d beta : shaped d -> length beta = gd_numFixed _ d ->
  compute_XBeta Rnum d beta =
  Ok (map (fun row => sumR (length beta) (fun i => nth i row 0 * nth i beta 0)) (gd_X _ d)).
Proof.
  intros Sh Hb. unfold compute_XBeta. apply matvec_ok. intros row Hrow.
  transitivity (gd_numFixed _ d); [apply (sh_Xrow _ Sh), Hrow|symmetry; exact Hb].
Qed.
