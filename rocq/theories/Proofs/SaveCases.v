(** C81: whole numbers in decimal notation, and a small file. *)
From Coq Require Import String Ascii List ZArith Reals Lia Lra Bool Decimal DecimalString DecimalZ DecimalPos DecimalFacts.
From Verif Require Import Model.Base Model.Family Model.GLMM Model.SplitFrame Model.SaveFile Spec.Numbers Spec.GLMMSpec Spec.SplitSpec Spec.SaveSpec
  Proofs.SplitLemmas Proofs.SplitMain Proofs.SplitCases Proofs.SaveLemmas Proofs.SaveMain.
Import ListNotations.
Local Open Scope string_scope.
Notation length := List.length.

Lemma map_same {A} (f : A -> A) l : (forall a, In a l -> f a = a) -> map f l = l.
Proof. induction l as [|a l IH]; intros H; [reflexivity|]. cbn. f_equal; [apply H; now left|]. apply IH. intros; apply H; now right. Qed.
Lemma map_map_same {A} (f : A -> A) l : (forall a, In a (concat l) -> f a = a) -> map (map f) l = l.
Proof. intros H. apply map_same. intros r Hr. apply map_same. intros a Ha. apply H, in_concat. now exists r. Qed.
Lemma rounded_same round t : (forall x, In x (numbers_of t) -> round x = x) -> rounded round t = t.
Proof.
  destruct t as [d|items mean precision]; cbn [numbers_of rounded]; intros H.
  - destruct d as [items X p Zt m [rows cols] Lind y w]. cbn [gd_items gd_X gd_numFixed gd_Zt gd_numObs gd_Lambdat gd_Lind gd_response gd_weights sp_cols sp_rows] in *.
    f_equal. f_equal.
    + apply map_map_same. intros a Ha. apply H. rewrite !in_app_iff. auto.
    + apply map_map_same. intros a Ha. apply H. rewrite !in_app_iff. auto.
    + f_equal. apply map_map_same. intros [i x] Ha. cbn. f_equal. apply H. rewrite !in_app_iff. right; right; left. apply in_map_iff. now exists (i, x).
    + apply map_same. intros a Ha. apply H. rewrite !in_app_iff. auto.
    + apply map_same. intros a Ha. apply H. rewrite !in_app_iff. auto.
  - f_equal; [apply map_same|apply map_map_same]; intros a Ha; apply H; rewrite in_app_iff; auto.
Qed.

Lemma C81_file_main value text15 text7 round15 round7 limit limit' : writes_numbers text15 value round15 limit -> writes_numbers text7 value round7 limit' ->
  (1 < limit)%Z -> (1 < limit')%Z ->
  forall fr y ts, regular fr -> (1 <= length (cs_cols (fr_Zt _ fr)))%nat -> counts_below limit limit' fr -> fr_response _ fr = Numeric _ y ->
  find_factorization_terms Rnum fr = Ok ts ->
  exists file, save_factorization text15 text7 fr = Ok file /\ read_file value file = Some (map (rounded round15) ts) /\
    ((forall t x, In t ts -> In x (numbers_of t) -> round15 x = x) -> read_file value file = Some ts).
Proof.
  intros W15 W7 B B' fr y ts Reg Hn Sm Ey Ht.
  destruct (file_main value text15 text7 round15 round7 limit limit' W15 W7 (conj B B') fr Reg Sm Hn y ts Ey Ht) as (file & E1 & E2).
  exists file. split; [exact E1|]. split; [exact E2|]. intros X. rewrite E2. f_equal. apply map_same. intros t Hin. apply rounded_same. intros x. now apply X.
Qed.
Lemma C81_factor_main value text15 text7 round15 round7 limit limit' : writes_numbers text15 value round15 limit -> writes_numbers text7 value round7 limit' ->
  (1 < limit)%Z -> (1 < limit')%Z -> value "TRUE" = None -> value "FALSE" = None ->
  forall fr codes ts, regular fr -> (1 <= length (cs_cols (fr_Zt _ fr)))%nat -> counts_below limit limit' fr -> fr_response _ fr = Factor _ codes ->
  find_factorization_terms Rnum fr = Ok ts ->
  exists file, save_factorization text15 text7 fr = Ok file /\ read_file value file = None.
Proof.
  intros W15 W7 B B' T F fr codes ts Reg Hn Sm Ey Ht.
  exact (logical_main value text15 text7 round15 round7 limit limit' W15 W7 (conj B B') fr Reg Sm Hn codes ts Ey T F Ht).
Qed.

(** * Decimal notation of the whole part *)
Definition decimal (x : R) : string := NilZero.string_of_int (Z.to_int (Int_part x)).
Definition whole_value (s : string) : option R := option_map (fun i => IZR (Z.of_int i)) (NilZero.int_of_string s).
Definition whole_part (x : R) : R := IZR (Int_part x).

Lemma digits_free c u : c = " "%char \/ c = ascii_of_nat 10 -> has_char c (NilEmpty.string_of_uint u) = false.
Proof. intros H. induction u; cbn [NilEmpty.string_of_uint has_char]; [reflexivity|..]; rewrite IHu; destruct H as [->| ->]; reflexivity. Qed.
Lemma zero_free c u : c = " "%char \/ c = ascii_of_nat 10 -> has_char c (NilZero.string_of_uint u) = false /\ NilZero.string_of_uint u <> "".
Proof. intros H. destruct u; try (split; [exact (digits_free c _ H)|easy]). split; [|easy]. destruct H as [->| ->]; reflexivity. Qed.
Lemma int_free c i : c = " "%char \/ c = ascii_of_nat 10 -> has_char c (NilZero.string_of_int i) = false /\ NilZero.string_of_int i <> "".
Proof.
  intros H. destruct i as [u|u]; cbn [NilZero.string_of_int]; [now apply zero_free|]. split; [|easy].
  cbn [has_char]. rewrite (proj1 (zero_free c u H)). destruct H as [->| ->]; reflexivity.
Qed.
Lemma to_int_nonnil z : Z.to_int z <> Pos Nil /\ Z.to_int z <> Neg Nil.
Proof. destruct z as [|p|p]; cbn [Z.to_int]; split; try easy; intros E; injection E as E; now apply Unsigned.to_uint_nonnil in E. Qed.
Lemma decimal_writes limit : writes_numbers decimal whole_value whole_part limit.
Proof.
  constructor.
  - intros x. unfold decimal. destruct (int_free " " (Z.to_int (Int_part x)) (or_introl eq_refl)) as [H1 H2].
    destruct (int_free (ascii_of_nat 10) (Z.to_int (Int_part x)) (or_intror eq_refl)) as [H3 _]. auto.
  - intros x. unfold whole_value, decimal, whole_part. destruct (to_int_nonnil (Int_part x)) as [N1 N2]. rewrite NilZero.isi by assumption.
    cbn [option_map]. now rewrite DecimalZ.of_to.
  - intros z _. unfold whole_part. now rewrite Int_part_IZR.
Qed.
Lemma whole_value_logical : whole_value "TRUE" = None /\ whole_value "FALSE" = None.
Proof. split; reflexivity. Qed.
Lemma decimal_IZR z : decimal (IZR z) = NilZero.string_of_int (Z.to_int z).
Proof. unfold decimal. now rewrite Int_part_IZR. Qed.

Definition factor_frame : frame Rnum :=
  mkFrame Rnum [[1%R]; [1%R]; [1%R]] 1 (mkCsc 2 [[(0%nat, 2%R)]; [(0%nat, 1%R)]; [(1%nat, 1%R)]])
    (mkCsc 2 [[(0%nat, 1%R)]; [(1%nat, 1%R)]]) [1%Z; 1%Z] (Factor Rnum [2; 1; 2]%nat) None.

Lemma slopes_ext : let fr := slopes [(0%nat, 2%R)] in
  let act := find_active (fr_Lambdat _ fr) (fr_Zt _ fr) in add_obs (unique identical act) act (seq 1 3) = Ok [([1%nat], [1%nat; 2%nat]); ([2%nat], [3%nat])].
Proof. reflexivity. Qed.
Lemma C81_text_main : save_factorization decimal decimal (slopes [(0%nat, 2%R)]) =
  Ok ("G 1 0 2 1 1 1 2 1 1 0 0 1 0 1 1 1 1" ++ newline ++ "G 1 1 1 1 1 1 1 0 0 1 0 1 1" ++ newline ++ "N 1 0 0 1 " ++ newline ++ "N 1 1 0 1 " ++ newline).
Proof.
  assert (Reg : regular (slopes [(0%nat, 2%R)])) by apply slopes_case.
  destruct (save_eq decimal decimal 10 10 ltac:(lia) (slopes [(0%nat, 2%R)]) Reg) with (ext := [([1%nat], [1%nat; 2%nat]); ([2%nat], [3%nat])]) as (_ & E & _).
  { repeat split; try reflexivity; destruct H as [<-|[<-|[]]]; lia. }
  { cbn. lia. }
  { reflexivity. }
  rewrite E. f_equal. clear E.
  lazy -[decimal IZR Rplus append newline]. rewrite !Rplus_0_r, !decimal_IZR. reflexivity.
Qed.


Lemma C81_case_main : writes_numbers decimal whole_value whole_part (10 ^ 15) /\ writes_numbers decimal whole_value whole_part (10 ^ 7) /\
  whole_value "TRUE" = None /\ whole_value "FALSE" = None /\
  (let fr := slopes [(0%nat, 2%R)] in regular fr /\ counts_below (10 ^ 15) (10 ^ 7) fr /\ (exists ts, find_factorization_terms Rnum fr = Ok ts) /\
   save_factorization decimal decimal fr =
     Ok ("G 1 0 2 1 1 1 2 1 1 0 0 1 0 1 1 1 1" ++ newline ++ "G 1 1 1 1 1 1 1 0 0 1 0 1 1" ++ newline ++ "N 1 0 0 1 " ++ newline ++ "N 1 1 0 1 " ++ newline)) /\
  (regular factor_frame /\ counts_below (10 ^ 15) (10 ^ 7) factor_frame /\ (exists ts, find_factorization_terms Rnum factor_frame = Ok ts)) /\
  save_normal decimal [1%R; 2%R] [[(0%nat, 3%R)]; [(0%nat, 1%R); (1%nat, 4%R)]] = "1 2 " ++ newline ++ "3 0 0 3 0 1 1 1 1 4 " ++ newline.
Proof.
  split; [apply decimal_writes|]. split; [apply decimal_writes|]. split; [reflexivity|]. split; [reflexivity|].
  assert (Reg : regular (slopes [(0%nat, 2%R)])) by apply slopes_case.
  split; [|split].
  - cbv zeta. split; [exact Reg|]. split; [repeat split; try reflexivity; destruct H as [<-|[<-|[]]]; lia|]. split; [|exact C81_text_main].
    destruct slopes_case as (_ & _ & d1 & d2 & E & _). eexists. exact E.
  - assert (Reg' : regular factor_frame) by (destruct Reg; constructor; assumption).
    split; [exact Reg'|]. split; [repeat split; try reflexivity; destruct H as [<-|[<-|[]]]; lia|].
    apply C37_fails_main; [exact Reg'|cbn; lia|]. exists 0%nat, 0%nat. split; [cbn; lia|]. exists 0%nat. split; [exists 2%R|exists 1%R]; now left.
  - lazy -[decimal IZR append newline]. rewrite !decimal_IZR. reflexivity.
Qed.
