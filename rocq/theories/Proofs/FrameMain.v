(** The linear predictor of sums, multiples and subsets of model frames. *)
From Coq Require Import String List Reals Bool Arith ZArith Lia Lra.
From Verif Require Import Model.Base Model.Indexing Model.Subexpr Spec.IndexSpec Spec.SubexprSpec Proofs.IndexMain Proofs.SubexprLemmas.
Import ListNotations.
Local Open Scope R_scope.

Lemma nth_map_seq0 {A} (f : nat -> A) n k d : (k < n)%nat -> nth k (map f (seq 0 n)) d = f k.
Proof.
  intros H. rewrite (nth_indep _ d (f 0%nat)) by now rewrite map_length, seq_length.
  rewrite map_nth, seq_nth by exact H. reflexivity.
Qed.

Lemma nth_combine_seq {A B} (g : nat * A -> B) (l : list A) k d d' : (k < length l)%nat ->
  nth k (map g (combine (seq 0 (length l)) l)) d = g (k, nth k l d').
Proof.
  intros H. rewrite (nth_indep _ d (g (0%nat, d'))) by (rewrite map_length, combine_length, seq_length; lia).
  rewrite map_nth, combine_nth by now rewrite seq_length. rewrite seq_nth by exact H. reflexivity.
Qed.

Lemma map_combine_scale (l : list R) (c : R) s (h : nat -> R) : (forall j, (s <= j < s + length l)%nat -> h j = c) ->
  map (fun jx => snd jx * h (fst jx)) (combine (seq s (length l)) l) = map (fun x => x * c) l.
Proof.
  revert s. induction l as [|x l IH]; intros s H; [reflexivity|]. cbn [length seq combine map fst snd]. f_equal.
  - rewrite (H s); [reflexivity|]. cbn [length]. lia.
  - apply IH. intros j Hj. apply H. cbn [length]. lia.
Qed.

Lemma dot_scale c : forall u v, dot (map (fun x => x * c) u) v = dot u v * c.
Proof. induction u as [|x u IH]; intros [|y v]; cbn [dot map]; try ring. rewrite IH. ring. Qed.

Lemma dot_add : forall u v w, length u = length v -> dot (map (fun uv => fst uv + snd uv) (combine u v)) w = dot u w + dot v w.
Proof.
  induction u as [|x u IH]; intros [|y v] w H; try discriminate H; [cbn [dot map combine]; ring|].
  injection H as H. destruct w as [|z w]; cbn [dot map combine fst snd]; [ring|]. rewrite IH by exact H. ring.
Qed.

Lemma lin_length beta b f : length (lin beta b f) = rows_of f.
Proof. unfold lin. now rewrite map_length, seq_length. Qed.

Lemma recycle_length op a b : a <> [] -> b <> [] -> length (recycle op a b) = Nat.max (length a) (length b).
Proof. intros Ha Hb. destruct a; [easy|]. destruct b; [easy|]. unfold recycle. now rewrite map_length, seq_length. Qed.

Lemma recycle_same op a b : length a = length b -> recycle op a b = map (fun k => op (nth k a 0) (nth k b 0)) (seq 0 (length a)).
Proof.
  intros H. destruct a as [|x a]; [destruct b; [reflexivity|discriminate H]|]. destruct b as [|y b]; [discriminate H|].
  unfold recycle. rewrite <- H, Nat.max_id. apply map_ext_in. intros k Hk. apply in_seq in Hk. rewrite Nat.mod_small by lia. reflexivity.
Qed.

Lemma recycle_scalar_r op a c : recycle op a [c] = map (fun k => op (nth k a 0) c) (seq 0 (length a)).
Proof.
  destruct a as [|x a]; [reflexivity|]. unfold recycle. cbn [length]. rewrite (Nat.max_l (S (length a)) 1) by lia.
  apply map_ext_in. intros k Hk. apply in_seq in Hk. rewrite Nat.mod_small by (cbn [length]; lia). rewrite Nat.mod_1_r. reflexivity.
Qed.

Lemma recycle_swap op a b : (forall x y, op x y = op y x) -> recycle op a b = recycle op b a.
Proof.
  intros C. destruct a as [|x a]; destruct b as [|y b]; try reflexivity. unfold recycle. rewrite Nat.max_comm.
  apply map_ext. intros k. apply C.
Qed.

(** The frames that have the same coefficients. *)
Definition shaped (g f : mframe) : Prop :=
  matrices f /\ mf_p f = mf_p g /\ mf_q f = mf_q g /\ (mf_Zt f = None <-> mf_Zt g = None).

(** What a vector must be like to be multiplied with the rows. *)
Definition fits (f : mframe) (a : list R) : Prop := length a = 1%nat \/ mf_Zt f = None /\ rows_of f = length a.

Lemma recycled_fit f a i j : fits f a -> (i < rows_of f)%nat ->
  recycled a (rows_of f) i j = if Nat.eqb (length a) 1 then nth 0 a 0 else nth i a 0.
Proof.
  intros [H|[_ H]] Hi; unfold recycled.
  - rewrite H. cbn [Nat.eqb]. rewrite Nat.mod_1_r. reflexivity.
  - rewrite <- H. rewrite (Nat.mul_comm (rows_of f) j), Nat.mod_add by lia. rewrite (Nat.mod_small i) by exact Hi.
    destruct (Nat.eqb_spec (rows_of f) 1) as [E|]; [|reflexivity]. replace i with 0%nat by lia. reflexivity.
Qed.

Lemma scale_X_nth f a k : matrices f -> fits f a -> (k < rows_of f)%nat ->
  nth k (scale_X (mf_X f) a) [] = map (fun x => x * (if Nat.eqb (length a) 1 then nth 0 a 0 else nth k a 0)) (nth k (mf_X f) []).
Proof.
  intros M F Hk. unfold scale_X. rewrite (nth_combine_seq _ (mf_X f) k [] []) by exact Hk. cbn [fst snd].
  apply (map_combine_scale (nth k (mf_X f) []) _ 0 (fun j => recycled a (length (mf_X f)) k j)). intros j _. apply recycled_fit; assumption.
Qed.

Lemma scale_Zt_nth q Zt a k c : a = [c] -> (k < length Zt)%nat -> nth k (scale_Zt q Zt a) [] = map (fun x => x * c) (nth k Zt []).
Proof.
  intros -> Hk. unfold scale_Zt. rewrite (nth_combine_seq _ Zt k [] []) by exact Hk. cbn [fst snd].
  apply (map_combine_scale (nth k Zt []) c 0 (fun i => recycled [c] q i k)). intros j _. unfold recycled. cbn [length].
  rewrite Nat.mod_1_r. reflexivity.
Qed.

Lemma Forall_scaled {A} (g : nat -> A -> list R) (l : list A) (P : list R -> Prop) s :
  (forall k x, In x l -> P (g k x)) -> List.Forall P (map (fun ir => g (fst ir) (snd ir)) (combine (seq s (length l)) l)).
Proof.
  intros H. apply Forall_forall. intros r Hr. apply in_map_iff in Hr. destruct Hr as [[k x] [<- Hx]]. apply in_combine_r in Hx. now apply H.
Qed.

Lemma times_shaped f a g : matrices f -> times_fr f a = Ok g -> shaped f g /\ rows_of g = rows_of f.
Proof.
  intros [MX MZ] H. unfold times_fr in H. destruct (recyclable a _ _); [|discriminate H].
  assert (LX : length (scale_X (mf_X f) a) = rows_of f) by (unfold scale_X, rows_of; rewrite map_length, combine_length, seq_length; lia).
  assert (FX : List.Forall (fun r => length r = mf_p f) (scale_X (mf_X f) a)).
  { unfold scale_X. apply (Forall_scaled (fun i x => map (fun jx => snd jx * recycled a (length (mf_X f)) i (fst jx)) (combine (seq 0 (length x)) x))).
    intros k x Hx. rewrite map_length, combine_length, seq_length. rewrite Nat.min_id. rewrite Forall_forall in MX. now apply MX. }
  destruct (mf_Zt f) as [Zt|] eqn:EZ.
  - destruct (recyclable a _ _); [|discriminate H]. injection H as <-. destruct MZ as [LZ FZ]. unfold shaped, matrices, rows_of. cbn [mf_X mf_p mf_q mf_Zt].
    split; [|exact LX]. rewrite EZ. repeat split; try assumption; try discriminate.
    + unfold scale_Zt. rewrite map_length, combine_length, seq_length, Nat.min_id. rewrite LZ. symmetry. exact LX.
    + unfold scale_Zt. apply (Forall_scaled (fun j x => map (fun ix => snd ix * recycled a (mf_q f) (fst ix) j) (combine (seq 0 (length x)) x))).
      intros k x Hx. rewrite map_length, combine_length, seq_length, Nat.min_id. rewrite Forall_forall in FZ. now apply FZ.
  - injection H as <-. unfold shaped, matrices, rows_of. cbn [mf_X mf_p mf_q mf_Zt]. rewrite EZ. split; [|exact LX]. repeat split; assumption.
Qed.

Lemma times_lin f a g beta b : matrices f -> fits f a -> times_fr f a = Ok g -> lin beta b g = recycle Rmult (lin beta b f) a.
Proof.
  intros M F H. destruct (times_shaped f a g M H) as [_ LR].
  assert (E : lin beta b g = map (fun k => nth k (lin beta b f) 0 * (if Nat.eqb (length a) 1 then nth 0 a 0 else nth k a 0)) (seq 0 (rows_of f))).
  { unfold lin at 1. rewrite LR. apply map_ext_in. intros k Hk. apply in_seq in Hk. assert (K : (k < rows_of f)%nat) by lia.
    unfold lin. rewrite nth_map_seq0 by exact K. pose proof (scale_X_nth f a k M F K) as SX. destruct M as [MX MZ].
    unfold times_fr in H. destruct (recyclable a _ _); [|discriminate H]. destruct (mf_Zt f) as [Zt|] eqn:EZ.
    - destruct (recyclable a _ _); [|discriminate H]. injection H as <-. cbn [mf_X mf_Zt]. rewrite SX, dot_scale.
      destruct F as [F|[F _]]; [|congruence]. destruct a as [|c [|]]; try discriminate F.
      rewrite (scale_Zt_nth _ _ [c] k c) by (try reflexivity; rewrite (proj1 MZ); exact K). rewrite dot_scale. cbn [length Nat.eqb nth]. ring.
    - injection H as <-. cbn [mf_X mf_Zt]. rewrite SX, dot_scale. ring. }
  rewrite E. destruct F as [F|[FZ F]].
  - destruct a as [|c [|]]; try discriminate F. rewrite recycle_scalar_r, lin_length. reflexivity.
  - rewrite recycle_same by (rewrite lin_length; exact F). rewrite lin_length. apply map_ext_in. intros k Hk. apply in_seq in Hk.
    destruct (Nat.eqb_spec (length a) 1) as [E1|]; [|reflexivity]. replace k with 0%nat by lia. reflexivity.
Qed.

Lemma over_lin f a g beta b : matrices f -> fits f a -> over_fr f a = Ok g -> lin beta b g = recycle Rdiv (lin beta b f) a.
Proof.
  intros M F H. unfold over_fr in H. assert (F' : fits f (map (fun x => 1 / x) a)) by (unfold fits in *; now rewrite map_length).
  rewrite (times_lin f _ g beta b M F' H). destruct (lin beta b f) as [|x l]; [reflexivity|]. destruct a as [|y a]; [reflexivity|].
  unfold recycle. cbn [map length]. rewrite map_length. apply map_ext. intros k.
  set (j := (k mod S (length a))%nat).
  assert (J : (j < length (y :: a))%nat) by (apply Nat.mod_upper_bound; discriminate).
  change (1 / y :: map (fun x0 => 1 / x0) a) with (map (fun x0 => 1 / x0) (y :: a)).
  rewrite (nth_indep (map _ (y :: a)) 0 (1 / 0)) by now rewrite map_length. rewrite (map_nth (fun x0 => 1 / x0)). unfold Rdiv. ring.
Qed.

Lemma add_rows_nth a b k : length a = length b -> (k < length a)%nat ->
  nth k (add_rows a b) [] = map (fun uv => fst uv + snd uv) (combine (nth k a []) (nth k b [])).
Proof.
  intros L K. unfold add_rows.
  set (F := fun xy : list R * list R => map (fun uv : R * R => fst uv + snd uv) (combine (fst xy) (snd xy))).
  rewrite (nth_indep _ [] (F ([], []))) by (rewrite map_length, combine_length; lia).
  rewrite (map_nth F), combine_nth by exact L. reflexivity.
Qed.

Lemma add_rows_length a b : length a = length b -> length (add_rows a b) = length a.
Proof. intros L. unfold add_rows. rewrite map_length, combine_length. lia. Qed.

Lemma add_rows_Forall a b p : length a = length b -> List.Forall (fun r => length r = p) a -> List.Forall (fun r => length r = p) b ->
  List.Forall (fun r => length r = p) (add_rows a b).
Proof.
  intros L A B. apply Forall_forall. intros r Hr. unfold add_rows in Hr. apply in_map_iff in Hr. destruct Hr as [[x y] [<- Hxy]].
  rewrite Forall_forall in A, B. rewrite map_length, combine_length. cbn [fst snd].
  rewrite (A x) by now apply in_combine_l in Hxy. rewrite (B y) by now apply in_combine_r in Hxy. apply Nat.min_id.
Qed.

Lemma nth_len {A} (l : list (list A)) k p : List.Forall (fun r => length r = p) l -> (k < length l)%nat -> length (nth k l []) = p.
Proof. intros H K. rewrite Forall_forall in H. apply H. now apply nth_In. Qed.

Lemma plus_lin f g h beta b : matrices f -> matrices g -> plus_fr f g = Ok h ->
  shaped f h /\ lin beta b h = recycle Rplus (lin beta b f) (lin beta b g).
Proof.
  intros [FX FZ] [GX GZ] H. unfold plus_fr in H.
  assert (D : length (mf_X f) = length (mf_X g) /\ mf_p f = mf_p g).
  { destruct (mf_Zt f), (mf_Zt g); try discriminate H; (destruct (Nat.eqb_spec (length (mf_X f)) (length (mf_X g))); [|discriminate H]);
    (destruct (Nat.eqb_spec (mf_p f) (mf_p g)); [|discriminate H]); now split. }
  destruct D as [DL DP]. rewrite DL, DP, !Nat.eqb_refl in H. cbn [andb] in H.
  rewrite <- DP in GX. pose proof (add_rows_Forall _ _ _ DL FX GX) as SX. pose proof (add_rows_length _ _ DL) as SL.
  rewrite recycle_same by (rewrite !lin_length; exact DL). rewrite lin_length.
  assert (LP : forall k, (k < rows_of f)%nat -> dot (nth k (add_rows (mf_X f) (mf_X g)) []) beta = dot (nth k (mf_X f) []) beta + dot (nth k (mf_X g) []) beta).
  { intros k K. rewrite add_rows_nth by (try exact DL; exact K). apply dot_add. rewrite (nth_len _ k _ FX K). symmetry. apply (nth_len _ k _ GX). rewrite <- DL. exact K. }
  destruct (mf_Zt f) as [Z|] eqn:EF; destruct (mf_Zt g) as [W|] eqn:EG; try discriminate H.
  - destruct (Nat.eqb_spec (length Z) (length W)) as [ZL|]; [|discriminate H]. destruct (Nat.eqb_spec (mf_q f) (mf_q g)) as [ZQ|]; [|discriminate H].
    injection H as <-. destruct FZ as [FL FZ]. destruct GZ as [GL GZ]. rewrite <- ZQ in GZ.
    split.
    + unfold shaped, matrices, rows_of. cbn [mf_X mf_p mf_q mf_Zt]. rewrite EF, <- DP. repeat split; try assumption; try discriminate.
      * rewrite (add_rows_length _ _ ZL), SL. exact FL.
      * now apply add_rows_Forall.
    + unfold lin at 1. unfold rows_of at 1. cbn [mf_X mf_Zt]. rewrite SL. apply map_ext_in. intros k Hk. apply in_seq in Hk.
      assert (K : (k < rows_of f)%nat) by (unfold rows_of in *; lia). unfold lin. rewrite !nth_map_seq0 by (try exact K; unfold rows_of; rewrite <- DL; exact K).
      rewrite LP by exact K. rewrite add_rows_nth by (try exact ZL; rewrite FL; exact K).
      rewrite dot_add by (rewrite (nth_len _ k _ FZ) by (rewrite FL; exact K); symmetry; apply (nth_len _ k _ GZ); rewrite <- ZL, FL; exact K).
      rewrite EF, EG. ring.
  - injection H as <-. split.
    + unfold shaped, matrices, rows_of. cbn [mf_X mf_p mf_q mf_Zt]. rewrite EF, <- DP. repeat split; try assumption.
    + unfold lin at 1. unfold rows_of at 1. cbn [mf_X mf_Zt]. rewrite SL. apply map_ext_in. intros k Hk. apply in_seq in Hk.
      assert (K : (k < rows_of f)%nat) by (unfold rows_of in *; lia). unfold lin. rewrite !nth_map_seq0 by (try exact K; unfold rows_of; rewrite <- DL; exact K).
      rewrite LP by exact K. rewrite EF, EG. ring.
Qed.

Lemma minus_lin f g h beta b : matrices f -> matrices g -> minus_fr f g = Ok h ->
  shaped f h /\ lin beta b h = recycle Rminus (lin beta b f) (lin beta b g).
Proof.
  intros MF MG H. unfold minus_fr in H. apply bind_Ok in H. destruct H as [m [Hm H]].
  destruct (times_shaped g [-1] m MG Hm) as [[MM _] LR]. pose proof (times_lin g [-1] m beta b MG (or_introl eq_refl) Hm) as LM.
  assert (L : rows_of f = rows_of g).
  { rewrite <- LR. unfold plus_fr in H. unfold rows_of. destruct (mf_Zt f), (mf_Zt m); try discriminate H;
    (destruct (Nat.eqb_spec (length (mf_X f)) (length (mf_X m))); [assumption|discriminate H]). }
  destruct (plus_lin f m h beta b MF MM H) as [S E]. split; [exact S|]. rewrite E, LM, recycle_scalar_r.
  rewrite !recycle_same by (rewrite ?map_length, ?seq_length, !lin_length; exact L). rewrite !lin_length.
  apply map_ext_in. intros k Hk. apply in_seq in Hk. rewrite nth_map_seq0 by (rewrite <- L; lia). ring.
Qed.

Lemma pick_nth {A} (l : list A) i x d : pick l i = Ok x -> (1 <= i)%Z /\ (Z.to_nat (i - 1) < length l)%nat /\ nth (Z.to_nat (i - 1)) l d = x.
Proof.
  unfold pick. destruct (Z.ltb_spec i 1) as [?|Hi]; [discriminate|]. unfold vec_at. destruct (nth_error l (Z.to_nat (i - 1))) as [y|] eqn:E; [|discriminate].
  intros [= <-]. split; [exact Hi|]. split; [apply nth_error_Some; congruence|]. now apply nth_error_nth.
Qed.

Lemma pick_Ok {A} (l : list A) i d : (1 <= i)%Z -> (Z.to_nat (i - 1) < length l)%nat -> pick l i = Ok (nth (Z.to_nat (i - 1)) l d).
Proof.
  intros Hi L. unfold pick. destruct (Z.ltb_spec i 1); [lia|]. unfold vec_at. rewrite (nth_error_nth' l d L). reflexivity.
Qed.

Lemma picks_Ok {A} (l : list A) is d : List.Forall (fun i => (1 <= i)%Z /\ (Z.to_nat (i - 1) < length l)%nat) is ->
  picks l is = Ok (map (fun i => nth (Z.to_nat (i - 1)) l d) is).
Proof.
  intros H. unfold picks. apply mapM_Forall2. induction H as [|i is [Hi Li] H IH]; constructor; [|exact IH]. now apply pick_Ok.
Qed.

Lemma picks_nth {A} (l : list A) is r d : picks l is = Ok r ->
  List.Forall (fun i => (1 <= i)%Z /\ (Z.to_nat (i - 1) < length l)%nat) is /\ r = map (fun i => nth (Z.to_nat (i - 1)) l d) is.
Proof.
  unfold picks. intros H. apply mapM_Forall2 in H. induction H as [|i x is r Hix H [IH E]]; [split; [constructor|reflexivity]|].
  apply (pick_nth l i x d) in Hix. destruct Hix as [A1 [A2 A3]]. split; [constructor; [now split|exact IH]|]. cbn [map]. now rewrite A3, E.
Qed.

Lemma index_lin f is h : matrices f -> index_fr f is = Ok h -> shaped f h /\
  List.Forall (fun i => (1 <= i)%Z /\ (Z.to_nat (i - 1) < rows_of f)%nat) is /\
  forall beta b, lin beta b h = map (fun i => nth (Z.to_nat (i - 1)) (lin beta b f) 0) is.
Proof.
  intros [MX MZ] H. unfold index_fr in H. apply bind_Ok in H. destruct H as [X [HX H]]. apply (picks_nth _ _ _ []) in HX. destruct HX as [RI EX].
  assert (LX : length X = length is) by (rewrite EX; apply map_length).
  assert (FX : List.Forall (fun r => length r = mf_p f) X).
  { rewrite EX. apply Forall_forall. intros r Hr. apply in_map_iff in Hr. destruct Hr as [i [<- Hi]]. rewrite Forall_forall in RI.
    apply nth_len; [exact MX|]. now apply RI. }
  assert (Q : forall i, In i is -> (Z.to_nat (i - 1) < rows_of f)%nat) by (intros i Hi; rewrite Forall_forall in RI; now apply RI).
  assert (G : forall (zf zh : nat -> R), (forall k, (k < length is)%nat -> zh k = zf (Z.to_nat (nth k is 0%Z - 1))) -> forall beta,
     map (fun k => dot (nth k X []) beta + zh k) (seq 0 (length is)) =
     map (fun i => nth (Z.to_nat (i - 1)) (map (fun k => dot (nth k (mf_X f) []) beta + zf k) (seq 0 (rows_of f))) 0) is).
  { intros zf zh Hz beta. rewrite EX. clear EX LX FX H. revert zh Hz. induction is as [|i is IH]; intros zh Hz; [reflexivity|]. cbn [length seq map nth].
    f_equal.
    - rewrite nth_map_seq0 by (apply Q; now left). rewrite (Hz 0%nat) by (cbn [length]; lia). reflexivity.
    - rewrite <- seq_shift, map_map. cbn [nth map]. apply (IH (Forall_inv_tail RI) (fun j Hj => Q j (or_intror Hj)) (fun k => zh (S k))).
      intros k Hk. rewrite (Hz (S k)) by (cbn [length]; lia). reflexivity. }
  destruct (mf_Zt f) as [Zt|] eqn:EZ.
  - apply bind_Ok in H. destruct H as [Z [HZ H]]. apply (picks_nth _ _ _ []) in HZ. destruct HZ as [RZ EZZ]. injection H as <-. destruct MZ as [LZ FZ].
    split; [|split; [exact RI|]].
    + unfold shaped, matrices, rows_of. cbn [mf_X mf_p mf_q mf_Zt]. rewrite EZ. repeat split; try assumption; try discriminate.
      * rewrite EZZ, map_length. now symmetry.
      * rewrite EZZ. apply Forall_forall. intros r Hr. apply in_map_iff in Hr. destruct Hr as [i [<- Hi]]. rewrite Forall_forall in RZ.
        apply nth_len; [exact FZ|]. now apply RZ.
    + intros beta b. unfold lin. unfold rows_of at 1. cbn [mf_X mf_Zt]. rewrite LX, EZ. apply (G (fun k => dot (nth k Zt []) b) (fun k => dot (nth k Z []) b)).
      intros k Hk. rewrite EZZ. rewrite (nth_indep _ [] (nth (Z.to_nat (0 - 1)) Zt [])) by now rewrite map_length.
      rewrite (map_nth (fun i => nth (Z.to_nat (i - 1)) Zt [])). reflexivity.
  - injection H as <-. split; [|split; [exact RI|]].
    + unfold shaped, matrices, rows_of. cbn [mf_X mf_p mf_q mf_Zt]. rewrite EZ. repeat split; assumption.
    + intros beta b. unfold lin. unfold rows_of at 1. cbn [mf_X mf_Zt]. rewrite LX, EZ. apply (G (fun _ => 0) (fun _ => 0)). reflexivity.
Qed.
