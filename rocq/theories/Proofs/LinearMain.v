(** Which expressions are accepted. *)
From Coq Require Import String List Reals Bool Arith ZArith Lia Lra.
From Verif Require Import Model.Base Model.Indexing Model.Subexpr Spec.IndexSpec Spec.SubexprSpec Spec.LinearSpec Proofs.IndexMain Proofs.SubexprLemmas Proofs.FrameMain Proofs.SubexprMain.
Import ListNotations.
Local Open Scope string_scope.
Local Open Scope R_scope.
Notation length := List.length.

(** * Expressions without the variable *)
Section Aside.
Variable subvar : string.
Lemma status_Ok x : has_number x = false -> find_sub_status subvar x = Ok (occurs subvar x).
Proof.
  induction x as [c|s|xs IH] using rexpr_ind'; intros H; [discriminate H|reflexivity|]. rewrite status_call, occurs_call. rewrite has_number_call in H.
  assert (E : mapM (find_sub_status subvar) xs = Ok (map (occurs subvar) xs)).
  { apply mapM_Forall2. induction xs as [|y xs IHxs]; [constructor|]. inversion IH as [|? ? IHy IHr]; subst. cbn [existsb] in H. apply orb_false_elim in H. destruct H as [H1 H2].
    cbn [map]. constructor; [now apply IHy|now apply IHxs]. }
  rewrite E. cbn [bind]. f_equal. clear. induction xs as [|y xs IH]; [reflexivity|]. cbn [map existsb]. now rewrite IH.
Qed.
Lemma sub_number xs y : In y xs -> has_number (Call xs) = false -> has_number y = false.
Proof. rewrite has_number_call. intros I H. destruct (has_number y) eqn:E; [|reflexivity]. rewrite <- H. symmetry. apply existsb_exists. now exists y. Qed.
Lemma modify_Ok x : has_number x = false -> occurs subvar x = false -> modify_subexpr subvar x = Ok x.
Proof.
  induction x as [c|s|xs IH] using rexpr_ind'; intros H O; [discriminate H|reflexivity|]. rewrite modify_call_eq.
  assert (E : mapM (modify_subexpr subvar) xs = Ok xs).
  { apply mapM_Forall2. assert (A : forall y, In y xs -> has_number y = false /\ occurs subvar y = false) by (intros y Hy; split; [now apply (sub_number xs)|now apply (occurs_in subvar xs)]).
    clear H O. induction xs as [|y xs IHxs]; [constructor|]. inversion IH as [|? ? IHy IHr]; subst. constructor; [apply IHy; apply A; now left|].
    apply IHxs; [exact IHr|]. intros z Hz. apply A. now right. }
  rewrite E. cbn [bind]. unfold modify_call.
  assert (S : forall y, In y xs -> find_sub_status subvar y = Ok false) by (intros y Hy; rewrite status_Ok by (now apply (sub_number xs)); f_equal; now apply (occurs_in subvar xs)).
  destruct xs as [|h [|a [|b r]]]; cbn [bind orb]; try reflexivity.
  - rewrite (S a) by (right; now left). reflexivity.
  - rewrite (S a), (S b) by (cbn [In]; tauto). reflexivity.
Qed.
Lemma extract_none x : has_number x = false -> occurs subvar x = false -> extract_to_flatten subvar x = Ok [].
Proof.
  induction x as [c|s|xs IH] using rexpr_ind'; intros H O; [discriminate H|reflexivity|]. rewrite extract_call.
  assert (A : forall y, In y xs -> has_number y = false /\ occurs subvar y = false) by (intros y Hy; split; [now apply (sub_number xs)|now apply (occurs_in subvar xs)]).
  assert (E : exists ls, mapM (extract_to_flatten subvar) xs = Ok ls /\ concat ls = []).
  { exists (map (fun _ => []) xs). split; [apply mapM_Forall2|clear; induction xs as [|y xs IHxs]; [reflexivity|exact IHxs]]. clear H O. induction xs as [|y xs IHxs]; [constructor|]. inversion IH as [|? ? IHy IHr]; subst. cbn [map].
    constructor; [apply IHy; apply A; now left|]. apply IHxs; [exact IHr|]. intros z Hz. apply A. now right. }
  destruct E as (ls & -> & E). cbn [bind]. rewrite E. destruct xs as [|h [|a r]]; try reflexivity. destruct (is_name h "[" && _); [|reflexivity].
  rewrite status_Ok by (apply A; right; now left). destruct (A a) as [_ ->]; [right; now left|]. reflexivity.
Qed.
End Aside.

Lemma index_ok f is : matrices f -> List.Forall (fun i => (1 <= i)%Z /\ (Z.to_nat (i - 1) < rows_of f)%nat) is -> exists h, index_fr f is = Ok h.
Proof.
  intros [_ MZ] H. unfold index_fr. rewrite (picks_Ok _ _ []) by exact H. cbn [bind]. destruct (mf_Zt f) as [Zt|]; [|now eexists].
  rewrite (picks_Ok _ _ []) by (now rewrite (proj1 MZ)). now eexists.
Qed.
Lemma plus_ok base f g : shaped base f -> shaped base g -> rows_of f = rows_of g -> exists h, plus_fr f g = Ok h.
Proof.
  intros (MF & PF & QF & ZF) (MG & PG & QG & ZG) L. unfold plus_fr. unfold rows_of in L. rewrite PF, PG, QF, QG, L, !Nat.eqb_refl. cbn [andb].
  destruct MF as [_ MF]. destruct MG as [_ MG]. destruct (mf_Zt f) as [Z|], (mf_Zt g) as [W|].
  - destruct MF as [LF _]. destruct MG as [LG _]. unfold rows_of in *. rewrite LF, LG, L, Nat.eqb_refl. now eexists.
  - exfalso. pose proof (proj2 ZF (proj1 ZG eq_refl)) as E. discriminate E.
  - exfalso. pose proof (proj2 ZG (proj1 ZF eq_refl)) as E. discriminate E.
  - now eexists.
Qed.

Lemma shaped_step f g h : shaped f g -> shaped g h -> shaped f h.
Proof. intros [_ [P [Q Z]]] [M [P' [Q' Z']]]. split; [exact M|]. split; [congruence|]. split; [congruence|]. tauto. Qed.
Lemma times_ok base f v : shaped base f -> (length v = 1%nat \/ random base = false /\ length v = rows_of f /\ (0 < rows_of f)%nat /\ (0 < mf_p base)%nat) ->
  fits f v /\ exists h, times_fr f v = Ok h.
Proof.
  intros (MF & PF & QF & ZF) H. assert (N : random base = false -> mf_Zt f = None).
  { intros E. apply ZF. unfold random in E. now destruct (mf_Zt base). }
  split; [destruct H as [H|(H1 & H2 & _)]; [now left|right; split; [now apply N|now symmetry]]|]. unfold times_fr, recyclable.
  destruct H as [H|(H1 & H2 & H3 & H4)].
  - rewrite H. cbn [Nat.eqb orb]. destruct (mf_Zt f); now eexists.
  - rewrite (N H1). rewrite H2. unfold rows_of. replace (Nat.leb (length (mf_X f)) (length (mf_X f) * mf_p f)) with true.
    + replace (Nat.leb 1 (length (mf_X f))) with true by (symmetry; apply Nat.leb_le; exact H3). rewrite orb_true_r. now eexists.
    + symmetry. apply Nat.leb_le. rewrite PF. nia.
Qed.
Lemma scale_rows op a v n : length a = n -> (length v = 1%nat \/ length v = n) -> recycle op a v = by_rows n (fun k => op (nth k a 0) (multiplier v k)).
Proof.
  intros L [H|H].
  - destruct v as [|c [|]]; try discriminate H. rewrite recycle_scalar_r, L. reflexivity.
  - rewrite recycle_same by congruence. rewrite L. apply map_ext_in. intros k Hk. apply in_seq in Hk. f_equal. destruct v as [|c [|d v]]; try reflexivity.
    cbn [multiplier]. cbn [length] in H. replace k with 0%nat by lia. reflexivity.
Qed.

Section Accept.
Variable o : string -> list (list R) -> outcome (list R).
Variable data : env.
Variable subvar : string.
Variable base : mframe.
Variable dims : list Z.
Hypothesis HB : matrices base.
Hypothesis HR : rows_of base = length (grid dims).
Notation lin_e := (linear o data subvar dims (random base) (mf_p base)).

Lemma linear_occurs e n g : lin_e e n g -> occurs subvar e = true /\ has_number e = false.
Proof.
  assert (K : forall f a b, has_number a = false -> has_number b = false -> has_number (Call [Name f; a; b]) = false) by (intros f a b A B; rewrite has_number_call; cbn [existsb has_number]; now rewrite A, B).
  assert (KO : forall f a b, occurs subvar a = true \/ occurs subvar b = true -> occurs subvar (Call [Name f; a; b]) = true).
  { intros f a b [A|A]; rewrite occurs_call; cbn [existsb]; rewrite A, ?orb_true_r; reflexivity. }
  intros H. induction H as [names is n N LN NI F2 FL FW|e m g c v i He IH (C1 & C2 & C3) I F|a b n f g Ha IHa Hb IHb|a b n f g Ha IHa Hb IHb|c e v n f (C1 & C2 & C3) S He IH|c e v n f (C1 & C2 & C3) S He IH|c e v n f (C1 & C2 & C3) S NZ He IH].
  - split; [rewrite occurs_call; cbn [existsb occurs]; rewrite String.eqb_refl, orb_true_r; reflexivity|]. rewrite has_number_call. cbn [existsb has_number orb].
    clear. induction names as [|s l IH]; [reflexivity|exact IH].
  - split; [apply KO; left; apply IH|apply K; [apply IH|exact C2]].
  - split; [apply KO; left; apply IHa|apply K; [apply IHa|apply IHb]].
  - split; [apply KO; left; apply IHa|apply K; [apply IHa|apply IHb]].
  - split; [apply KO; right; apply IH|apply K; [exact C2|apply IH]].
  - split; [apply KO; left; apply IH|apply K; [apply IH|exact C2]].
  - split; [apply KO; left; apply IH|apply K; [apply IH|exact C2]].
Qed.
Lemma names_index names is : Forall2 (fun s i => exists v, get data s = Ok v /\ as_index v = Ok i) names is -> mapM (fun s => v <- get data s ;; as_index v) names = Ok is.
Proof. intros H. apply mapM_Forall2. induction H as [|s i names is (v & G & I) H IH]; constructor; [|exact IH]. now rewrite G. Qed.
Lemma extract_two f a b fa fb : extract_to_flatten subvar a = Ok fa -> extract_to_flatten subvar b = Ok fb -> extract_to_flatten subvar (Call [Name f; a; b]) = Ok (fa ++ fb)%list.
Proof.
  intros A B. rewrite extract_call. cbn [mapM extract_to_flatten]. rewrite A, B. cbn [bind]. cbn [concat app length Nat.ltb Nat.leb]. rewrite andb_false_r, app_nil_r. reflexivity.
Qed.
Lemma extract_linear e n g : lin_e e n g -> exists fl, extract_to_flatten subvar e = Ok fl /\ forall m, In m fl -> exists p, flat_var data dims m = Ok p.
Proof.
  assert (Two : forall f a b fa fb, extract_to_flatten subvar a = Ok fa -> extract_to_flatten subvar b = Ok fb -> (forall m, In m fa -> exists p, flat_var data dims m = Ok p) -> (forall m, In m fb -> exists p, flat_var data dims m = Ok p) ->
    exists fl, extract_to_flatten subvar (Call [Name f; a; b]) = Ok fl /\ forall m, In m fl -> exists p, flat_var data dims m = Ok p).
  { intros f a b fa fb A B HA HBB. exists (fa ++ fb)%list. split; [now apply extract_two|]. intros m Hm. apply in_app_or in Hm. destruct Hm; auto. }
  assert (Nil : forall m : list string, In m [] -> exists p, flat_var data dims m = Ok p) by (intros m []).
  intros H. induction H as [names is n N LN NI F2 FL FW|e m g c v i He IH (C1 & C2 & C3) I F|a b n f g Ha IHa Hb IHb|a b n f g Ha IHa Hb IHb|c e v n f (C1 & C2 & C3) S He IH|c e v n f (C1 & C2 & C3) S He IH|c e v n f (C1 & C2 & C3) S NZ He IH].
  - rewrite extract_call. assert (E : mapM (extract_to_flatten subvar) (Name "[" :: Name subvar :: map Name names) = Ok (map (fun _ => []) (Name "[" :: Name subvar :: map Name names))).
    { apply mapM_Forall2. cbn [map]. do 2 (constructor; [reflexivity|]). clear. induction names as [|s l IH]; constructor; [reflexivity|exact IH]. }
    rewrite E. cbn [bind]. assert (CE : forall l : list rexpr, concat (map (fun _ => @nil (list string)) l) = []) by (induction l as [|y l IHl]; [reflexivity|exact IHl]). rewrite CE.
    cbn [is_name String.eqb Ascii.eqb Bool.eqb andb]. destruct (Nat.ltb 3 _); [|exists []; now split].
    cbn [find_sub_status bind]. rewrite String.eqb_refl, names_of_Ok. cbn [bind]. exists [names]. split; [reflexivity|]. intros m [<-|[]].
    unfold flat_var. rewrite (names_index _ _ F2). cbn [bind]. destruct is as [|i0 is]; [inversion F2; subst; now elim N|].
    assert (SL : same_length (length i0) (i0 :: is) = true).
    { unfold same_length. apply forallb_forall. intros i Hi. rewrite Forall_forall in FL. apply Nat.eqb_eq. rewrite (FL i Hi), (FL i0 (or_introl eq_refl)). reflexivity. }
    rewrite SL. now eexists.
  - destruct IH as (fl & E & D). exact (Two _ _ _ _ _ E (extract_none _ _ C2 C1) D Nil).
  - destruct IHa as (fl & E & D). destruct IHb as (fl' & E' & D'). exact (Two _ _ _ _ _ E E' D D').
  - destruct IHa as (fl & E & D). destruct IHb as (fl' & E' & D'). exact (Two _ _ _ _ _ E E' D D').
  - destruct IH as (fl & E & D). exact (Two _ _ _ _ _ (extract_none _ _ C2 C1) E Nil D).
  - destruct IH as (fl & E & D). exact (Two _ _ _ _ _ E (extract_none _ _ C2 C1) D Nil).
  - destruct IH as (fl & E & D). exact (Two _ _ _ _ _ E (extract_none _ _ C2 C1) D Nil).
Qed.

Variable flat : list (list string).
Variable fv : list (string * value).
Hypothesis HF : mapM (flat_var data dims) flat = Ok fv.
Hypothesis HI : forall n m, In n flat -> In m flat -> join n = join m -> n = m.
Hypothesis HJ : forall n, In n flat -> join n <> subvar.
Let env1 : env := ((subvar, Frame base) :: fv ++ data)%list.

Lemma modify_two f f' a b a' b' : occurs subvar a = true \/ occurs subvar b = true -> has_number a = false -> has_number b = false ->
  In (f, f') [("+", "+fr"); ("-", "-fr"); ("*", "*fr"); ("/", "/fr")] ->
  modify_subexpr subvar a = Ok a' -> modify_subexpr subvar b = Ok b' -> modify_subexpr subvar (Call [Name f; a; b]) = Ok (Call [Name f'; a'; b']).
Proof.
  intros OO NA NB IF A B. rewrite modify_call_eq. cbn [mapM modify_subexpr]. rewrite A, B. cbn [bind]. unfold modify_call.
  rewrite (status_Ok subvar a NA), (status_Ok subvar b NB). cbn [bind].
  replace (occurs subvar a || occurs subvar b) with true by (destruct OO as [-> | ->]; [reflexivity|now rewrite orb_true_r]).
  destruct IF as [E|[E|[E|[E|[]]]]]; injection E as <- <-; reflexivity.
Qed.
Definition accepted (e : rexpr) (n : nat) (g : list R -> list R) : Prop :=
  exists e' f, modify_subexpr subvar e = Ok e' /\ eval o env1 e' = Ok (Frame f) /\ shaped base f /\ rows_of f = n /\ forall beta b, lin beta b f = g (lin beta b base).
Lemma eval_two f a b va vb : eval o env1 a = Ok va -> eval o env1 b = Ok vb -> eval o env1 (Call [Name f; a; b]) = apply o f [va; vb].
Proof. intros A B. rewrite eval_call. cbn [mapM]. rewrite A, B. reflexivity. Qed.
Lemma eval_aside c v : aside o data subvar c v -> (forall m, In m flat -> occurs (join m) c = false) -> eval o env1 c = Ok v.
Proof.
  intros (C1 & _ & C3) H. rewrite <- C3. exact (proj1 (env_same o data subvar base dims [] [] flat fv HF HJ c C1 H)).
Qed.
Lemma within_tuples names is n : names <> [] -> length names = length dims -> Forall2 (fun s i => exists v, get data s = Ok v /\ as_index v = Ok i) names is ->
  List.Forall (fun i => length i = n) is -> List.Forall (within dims) (tuples n is) ->
  length (flatten_vars is dims) = n /\ forall j, (j < n)%nat -> (1 <= nth j (flatten_vars is dims) 0)%Z /\ (Z.to_nat (nth j (flatten_vars is dims) 0%Z - 1) < rows_of base)%nat /\
    forall eta, length eta = rows_of base -> nth (Z.to_nat (nth j (flatten_vars is dims) 0%Z - 1)) eta 0 = element dims eta (map (fun i => nth j i 0%Z) is).
Proof.
  intros N LN F2 FL FW. assert (LI : length is = length dims) by (rewrite <- (F2_len _ _ _ F2); exact LN).
  assert (ND : dims <> []) by (intros D; rewrite D in LN; destruct names; [now apply N|discriminate LN]).
  assert (LK : forall v, In v is -> length v = n) by (now apply Forall_forall).
  assert (WI : forall j, (j < n)%nat -> within dims (map (fun v => nth j v 0%Z) is)).
  { intros j Hj. rewrite Forall_forall in FW. apply FW. unfold tuples. apply in_map_iff. exists j. split; [reflexivity|]. apply in_seq. lia. }
  destruct (C40_main dims is n ND LI LK WI) as [FLn FN]. split; [exact FLn|]. intros j Hj. destruct (FN j Hj) as [F1 F2'].
  assert (B : (Z.to_nat (nth j (flatten_vars is dims) 0%Z - 1) < length (grid dims))%nat) by (pose proof (grid_length dims (within_pos _ _ (WI j Hj))) as GL; lia).
  split; [lia|]. split; [now rewrite HR|]. intros eta Le. unfold element. rewrite (find_row_unique _ _ _ (grid_NoDup dims) B F2'). reflexivity.
Qed.
Lemma element_one d k : within [d] [k] -> (1 <= k)%Z /\ (Z.to_nat (k - 1) < length (grid [d]))%nat /\ forall eta, element [d] eta [k] = nth (Z.to_nat (k - 1)) eta 0.
Proof.
  intros W. assert (B : (1 <= k <= d)%Z) by (inversion W; assumption). assert (L : (Z.to_nat (k - 1) < length (grid [d]))%nat).
  { cbn [grid map concat]. rewrite app_nil_r, map_length. unfold upto. rewrite map_length, seq_length. lia. }
  split; [lia|]. split; [exact L|]. intros eta. unfold element. rewrite (find_row_unique [k] (grid [d]) (Z.to_nat (k - 1)) (grid_NoDup [d]) L); [reflexivity|].
  pose proof (grid_place _ _ W) as P. cbn [place] in P. replace (Z.to_nat (k - 1)) with (Z.to_nat (k - 1 + d * 0)) by (f_equal; lia). exact P.
Qed.
Lemma tuples_one i : tuples (length i) [i] = map (fun k => [k]) i.
Proof. unfold tuples. cbn [map]. induction i as [|k i IH]; [reflexivity|]. cbn [length seq map nth]. f_equal. rewrite <- seq_shift, map_map. exact IH. Qed.
Lemma base_shaped : shaped base base.
Proof. split; [exact HB|]. repeat split; tauto. Qed.
Lemma rows_lin f l : (forall beta b, lin beta b f = l beta b) -> rows_of f = length (l [] []).
Proof. intros H. now rewrite <- H, lin_length. Qed.
Lemma times_accepts f v n : shaped base f -> rows_of f = n -> scales (random base) (mf_p base) n v ->
  exists h, times_fr f v = Ok h /\ shaped base h /\ rows_of h = n /\ forall beta b, lin beta b h = by_rows n (fun k => nth k (lin beta b f) 0 * multiplier v k).
Proof.
  intros SF RF S. destruct (times_ok base f v SF) as (FT & h & Hh); [rewrite RF; exact S|]. destruct (times_shaped _ _ _ (proj1 SF) Hh) as [SH RH].
  exists h. split; [exact Hh|]. split; [exact (shaped_step _ _ _ SF SH)|]. split; [congruence|]. intros beta b. rewrite (times_lin f v h beta b (proj1 SF) FT Hh).
  apply scale_rows; [now rewrite lin_length|]. destruct S as [S|S]; [now left|right; apply S].
Qed.
Lemma accepts e n g : lin_e e n g -> (forall m, In m flat -> occurs (join m) e = false) -> (forall fl, extract_to_flatten subvar e = Ok fl -> incl fl flat) -> accepted e n g.
Proof.
  assert (GB : eval o env1 (Name subvar) = Ok (Frame base)) by (cbn [eval]; unfold env1; now rewrite get_cons, String.eqb_refl).
  intros H. induction H as [names is n N LN NI F2 FL FW|e m g c v i He IH C I F|a b n f g Ha IHa Hb IHb|a b n f g Ha IHa Hb IHb|c e v n f C S He IH|c e v n f C S He IH|c e v n f C S NZ He IH]; intros HO HX.
  - (* the variable *)
    destruct (within_tuples names is n N LN F2 FL FW) as [FLn FN].
    assert (ON : forall s, In s names -> occurs subvar (Name s) = false /\ forall m, In m flat -> occurs (join m) (Name s) = false).
    { intros s Hs. split; [cbn [occurs]; destruct (String.eqb_spec s subvar) as [->|_]; [contradiction|reflexivity]|]. intros m Hm. refine (occurs_in _ _ (Name s) _ (HO m Hm)). right. right. now apply in_map. }
    assert (MN : mapM (modify_subexpr subvar) (Name "[" :: Name subvar :: map Name names) = Ok (Name "[" :: Name subvar :: map Name names)).
    { apply mapM_Forall2. do 2 (constructor; [reflexivity|]). clear. induction names as [|s l IH]; cbn [map]; constructor; [reflexivity|exact IH]. }
    assert (SB : find_sub_status subvar (Name subvar) = Ok true) by (cbn [find_sub_status]; now rewrite String.eqb_refl).
    destruct names as [|s [|t names]]; [now elim N| |].
    + (* one subscript *)
      clear FLn FN. inversion F2 as [|? i ? ? (v & G & AI) F2']; subst. inversion F2'; subst. assert (ED : exists d, dims = [d]) by (destruct dims as [|d [|]]; try discriminate LN; now exists d). destruct ED as [d ED]. clear F2 F2'.
      assert (Li : length i = n) by (now inversion FL). subst n. rewrite tuples_one in FW |- *.
      assert (W : forall k, In k i -> within [d] [k]) by (intros k Hk; rewrite Forall_forall in FW; rewrite <- ED; apply FW; apply in_map_iff; now exists k).
      assert (E : eval o env1 (Name s) = Ok v).
      { apply eval_aside; [|apply ON; now left]. split; [apply ON; now left|]. split; [reflexivity|exact G]. }
      destruct (index_ok base i HB) as [h Hh].
      { apply Forall_forall. intros k Hk. destruct (element_one d k (W k Hk)) as (A & B & _). rewrite HR, ED. now split. }
      destruct (index_lin base i h HB Hh) as (SH & RG & L). exists (Call [Name "[fr"; Name subvar; Name s]), h.
      assert (L' : forall beta b, lin beta b h = map (element dims (lin beta b base)) (map (fun k => [k]) i)).
      { intros beta b. rewrite L, map_map, ED. apply map_ext_in. intros k Hk. destruct (element_one d k (W k Hk)) as (_ & _ & X). now rewrite X. }
      split; [|split; [|split; [exact SH|split; [|exact L']]]].
      * rewrite modify_call_eq. cbn [map] in MN |- *. rewrite MN. cbn [bind]. unfold modify_call. rewrite SB. cbn [find_sub_status bind].
        destruct (ON s (or_introl eq_refl)) as [X _]. cbn [occurs] in X. rewrite X. reflexivity.
      * rewrite (eval_two _ _ _ _ _ GB E). unfold apply. cbn [String.eqb Ascii.eqb Bool.eqb]. rewrite AI. cbn [bind]. now rewrite Hh.
      * rewrite (rows_lin _ _ L'), !map_length. reflexivity.
    + (* several *)
      set (names' := s :: t :: names) in *.
      assert (IN : In names' flat).
      { destruct (extract_linear _ _ _ (linear_variable o data subvar dims (random base) (mf_p base) names' is n N LN NI F2 FL FW)) as (fl & X & _). apply (HX fl X).
        rewrite extract_call in X. destruct (mapM (extract_to_flatten subvar) _) as [ls| | |]; try discriminate X. cbn [bind] in X. cbn [is_name String.eqb Ascii.eqb Bool.eqb andb] in X.
        change (Nat.ltb 3 (length (Name "[" :: Name subvar :: map Name names'))) with true in X. rewrite SB in X. cbn [bind] in X. rewrite names_of_Ok in X. cbn [bind] in X. injection X as <-. now left. }
      destruct (mapM_In _ _ _ names' HF IN) as [p [Hp _]]. pose proof (get_flat data subvar base dims flat fv HF HI HJ names' p IN Hp) as GP.
      assert (EP : snd p = Vec (map IZR (flatten_vars is dims))).
      { unfold flat_var in Hp. rewrite (names_index _ _ F2) in Hp. cbn [bind] in Hp. destruct is as [|i0 is]; [discriminate Hp|]. destruct (same_length (length i0) (i0 :: is)); [|discriminate Hp]. now injection Hp as <-. }
      destruct (index_ok base (flatten_vars is dims) HB) as [h Hh].
      { apply Forall_forall. intros k Hk. destruct (In_nth _ _ 0%Z Hk) as (j & Hj & <-). rewrite FLn in Hj. destruct (FN j Hj) as (A & B & _). now split. }
      destruct (index_lin base _ h HB Hh) as (SH & RG & L). exists (Call [Name "[fr"; Name subvar; Name (join names')]), h.
      assert (L' : forall beta b, lin beta b h = map (element dims (lin beta b base)) (tuples n is)).
      { intros beta b. rewrite L. unfold tuples. rewrite map_map. apply (nth_ext _ _ 0 0); [now rewrite !map_length, seq_length|]. intros j Hj. rewrite map_length, FLn in Hj.
        rewrite nth_map_seq0 by exact Hj. destruct (FN j Hj) as (_ & _ & X). rewrite <- X by (now rewrite lin_length).
        rewrite (nth_indep _ 0 (nth (Z.to_nat (0 - 1)) (lin beta b base) 0)) by (now rewrite map_length, FLn).
        exact (map_nth (fun k => nth (Z.to_nat (k - 1)) (lin beta b base) 0) (flatten_vars is dims) 0%Z j). }
      split; [|split; [|split; [exact SH|split; [|exact L']]]].
      * rewrite modify_call_eq, MN. cbn [bind]. unfold modify_call. rewrite SB. cbn [bind]. unfold names' at 1. cbn [map]. cbn [find_sub_status bind].
        destruct (ON s (or_introl eq_refl)) as [X _]. cbn [occurs] in X. rewrite X. cbn [orb negb andb is_name String.eqb Ascii.eqb Bool.eqb].
        change (Nat.ltb 3 (length (Name "[" :: Name subvar :: map Name names'))) with true. cbn match. rewrite names_of_Ok. reflexivity.
      * assert (EJ : eval o env1 (Name (join names')) = Ok (snd p)) by exact GP. rewrite (eval_two _ _ _ _ _ GB EJ), EP. unfold apply. cbn [String.eqb Ascii.eqb Bool.eqb as_index bind]. rewrite Int_IZR, Hh. reflexivity.
      * rewrite (rows_lin _ _ L'). unfold tuples. rewrite !map_length, seq_length. reflexivity.
  - (* a subset *)
    destruct (linear_occurs _ _ _ He) as [OE NE]. destruct IH as (e' & f & ME & EE & SF & RF & LF).
    { intros m0 Hm. refine (occurs_in _ _ e _ (HO m0 Hm)); cbn [In]; tauto. }
    { intros fl X. apply HX. rewrite (extract_two "[" e c fl [] X (extract_none _ _ (proj1 (proj2 C)) (proj1 C))). now rewrite app_nil_r. }
    assert (EC : eval o env1 c = Ok v).
    { apply eval_aside; [exact C|]. intros m0 Hm. refine (occurs_in _ _ c _ (HO m0 Hm)); cbn [In]; tauto. }
    destruct (index_ok f i (proj1 SF)) as [h Hh].
    { apply Forall_forall. intros k Hk. rewrite Forall_forall in F. specialize (F k Hk). lia. }
    destruct (index_lin f i h (proj1 SF) Hh) as (SH & RG & L). exists (Call [Name "[fr"; e'; c]), h.
    assert (L' : forall beta b, lin beta b h = map (fun k => nth (Z.to_nat (k - 1)) (g (lin beta b base)) 0) i) by (intros beta b; now rewrite L, LF).
    split; [|split; [|split; [exact (shaped_step _ _ _ SF SH)|split; [|exact L']]]].
    + rewrite modify_call_eq. cbn [mapM]. rewrite ME, (modify_Ok _ _ (proj1 (proj2 C)) (proj1 C)). cbn [bind modify_subexpr]. unfold modify_call.
      rewrite (status_Ok subvar e NE), (status_Ok subvar c (proj1 (proj2 C))), OE, (proj1 C). reflexivity.
    + rewrite (eval_two _ _ _ _ _ EE EC). unfold apply. cbn [String.eqb Ascii.eqb Bool.eqb]. rewrite I. cbn [bind]. now rewrite Hh.
    + rewrite (rows_lin _ _ L'), map_length. reflexivity.
  - (* a sum *)
    destruct (extract_linear _ _ _ Ha) as (fa & XA & _). destruct (extract_linear _ _ _ Hb) as (fb & XB & _). specialize (HX _ (extract_two "+" _ _ _ _ XA XB)).
    destruct IHa as (a' & fa' & MA & EA & SA & RA & LA); [intros m0 Hm; refine (occurs_in _ _ a _ (HO m0 Hm)); cbn [In]; tauto|intros fl X; rewrite XA in X; injection X as <-; intros m Hm; apply HX; apply in_or_app; now left|].
    destruct IHb as (b' & fb' & MB & EB & SB & RB & LB); [intros m0 Hm; refine (occurs_in _ _ b _ (HO m0 Hm)); cbn [In]; tauto|intros fl X; rewrite XB in X; injection X as <-; intros m Hm; apply HX; apply in_or_app; now right|].
    destruct (linear_occurs _ _ _ Ha) as [OA NA]. destruct (linear_occurs _ _ _ Hb) as [OB NB]. destruct (plus_ok base fa' fb' SA SB) as [h Hh]; [congruence|].
    exists (Call [Name "+fr"; a'; b']), h. assert (SH : shaped base h) by (exact (shaped_step _ _ _ SA (proj1 (plus_lin fa' fb' h [] [] (proj1 SA) (proj1 SB) Hh)))).
    assert (L' : forall beta c, lin beta c h = by_rows n (fun k => nth k (f (lin beta c base)) 0 + nth k (g (lin beta c base)) 0)).
    { intros beta c. rewrite (proj2 (plus_lin fa' fb' h beta c (proj1 SA) (proj1 SB) Hh)). rewrite recycle_same by (rewrite !lin_length; congruence). now rewrite lin_length, RA, LA, LB. }
    split; [apply (modify_two "+" "+fr" a b a' b' (or_introl OA) NA NB); [cbn [In]; tauto|exact MA|exact MB]|]. split; [|split; [exact SH|split; [|exact L']]].
    + rewrite (eval_two _ _ _ _ _ EA EB). unfold apply. cbn [String.eqb Ascii.eqb Bool.eqb]. now rewrite Hh.
    + rewrite (rows_lin _ _ L'). unfold by_rows. now rewrite map_length, seq_length.
  - (* a difference *)
    destruct (extract_linear _ _ _ Ha) as (fa & XA & _). destruct (extract_linear _ _ _ Hb) as (fb & XB & _). specialize (HX _ (extract_two "-" _ _ _ _ XA XB)).
    destruct IHa as (a' & fa' & MA & EA & SA & RA & LA); [intros m0 Hm; refine (occurs_in _ _ a _ (HO m0 Hm)); cbn [In]; tauto|intros fl X; rewrite XA in X; injection X as <-; intros m Hm; apply HX; apply in_or_app; now left|].
    destruct IHb as (b' & fb' & MB & EB & SB & RB & LB); [intros m0 Hm; refine (occurs_in _ _ b _ (HO m0 Hm)); cbn [In]; tauto|intros fl X; rewrite XB in X; injection X as <-; intros m Hm; apply HX; apply in_or_app; now right|].
    destruct (linear_occurs _ _ _ Ha) as [OA NA]. destruct (linear_occurs _ _ _ Hb) as [OB NB]. destruct (times_ok base fb' [-1] SB) as (_ & m1 & Hm1); [now left|].
    destruct (times_shaped _ _ _ (proj1 SB) Hm1) as [SM RM]. destruct (plus_ok base fa' m1 SA (shaped_step _ _ _ SB SM)) as [h Hp]; [congruence|].
    assert (Hh : minus_fr fa' fb' = Ok h) by (unfold minus_fr; now rewrite Hm1).
    exists (Call [Name "-fr"; a'; b']), h. assert (SH : shaped base h) by (exact (shaped_step _ _ _ SA (proj1 (minus_lin fa' fb' h [] [] (proj1 SA) (proj1 SB) Hh)))).
    assert (L' : forall beta c, lin beta c h = by_rows n (fun k => nth k (f (lin beta c base)) 0 - nth k (g (lin beta c base)) 0)).
    { intros beta c. rewrite (proj2 (minus_lin fa' fb' h beta c (proj1 SA) (proj1 SB) Hh)). rewrite recycle_same by (rewrite !lin_length; congruence). now rewrite lin_length, RA, LA, LB. }
    split; [apply (modify_two "-" "-fr" a b a' b' (or_introl OA) NA NB); [cbn [In]; tauto|exact MA|exact MB]|]. split; [|split; [exact SH|split; [|exact L']]].
    + rewrite (eval_two _ _ _ _ _ EA EB). unfold apply. cbn [String.eqb Ascii.eqb Bool.eqb]. now rewrite Hh.
    + rewrite (rows_lin _ _ L'). unfold by_rows. now rewrite map_length, seq_length.
  - (* a product *)
    destruct (linear_occurs _ _ _ He) as [OE NE]. destruct IH as (e' & f' & ME & EE & SF & RF & LF).
    { intros m0 Hm. refine (occurs_in _ _ e _ (HO m0 Hm)); cbn [In]; tauto. }
    { intros fl X. apply HX. now rewrite (extract_two "*" c e [] fl (extract_none _ _ (proj1 (proj2 C)) (proj1 C)) X). }
    assert (EC : eval o env1 c = Ok (Vec v)).
    { apply eval_aside; [exact C|]. intros m0 Hm. refine (occurs_in _ _ c _ (HO m0 Hm)); cbn [In]; tauto. }
    destruct (times_accepts f' v n SF RF S) as (h & Hh & SH & RH & L). exists (Call [Name "*fr"; c; e']), h.
    split; [apply (modify_two "*" "*fr" c e c e' (or_intror OE) (proj1 (proj2 C)) NE); [cbn [In]; tauto|exact (modify_Ok _ _ (proj1 (proj2 C)) (proj1 C))|exact ME]|].
    split; [|split; [exact SH|split; [exact RH|]]].
    + rewrite (eval_two _ _ _ _ _ EC EE). unfold apply. cbn [String.eqb Ascii.eqb Bool.eqb]. now rewrite Hh.
    + intros beta b. rewrite L, LF. unfold by_rows. apply map_ext. intros k. apply Rmult_comm.
  - destruct (linear_occurs _ _ _ He) as [OE NE]. destruct IH as (e' & f' & ME & EE & SF & RF & LF).
    { intros m0 Hm. refine (occurs_in _ _ e _ (HO m0 Hm)); cbn [In]; tauto. }
    { intros fl X. apply HX. rewrite (extract_two "*" e c fl [] X (extract_none _ _ (proj1 (proj2 C)) (proj1 C))). now rewrite app_nil_r. }
    assert (EC : eval o env1 c = Ok (Vec v)).
    { apply eval_aside; [exact C|]. intros m0 Hm. refine (occurs_in _ _ c _ (HO m0 Hm)); cbn [In]; tauto. }
    destruct (times_accepts f' v n SF RF S) as (h & Hh & SH & RH & L). exists (Call [Name "*fr"; e'; c]), h.
    split; [apply (modify_two "*" "*fr" e c e' c (or_introl OE) NE (proj1 (proj2 C))); [cbn [In]; tauto|exact ME|exact (modify_Ok _ _ (proj1 (proj2 C)) (proj1 C))]|].
    split; [|split; [exact SH|split; [exact RH|]]].
    + rewrite (eval_two _ _ _ _ _ EE EC). unfold apply. cbn [String.eqb Ascii.eqb Bool.eqb]. now rewrite Hh.
    + intros beta b. now rewrite L, LF.
  - (* a quotient *)
    destruct (linear_occurs _ _ _ He) as [OE NE]. destruct IH as (e' & f' & ME & EE & SF & RF & LF).
    { intros m0 Hm. refine (occurs_in _ _ e _ (HO m0 Hm)); cbn [In]; tauto. }
    { intros fl X. apply HX. rewrite (extract_two "/" e c fl [] X (extract_none _ _ (proj1 (proj2 C)) (proj1 C))). now rewrite app_nil_r. }
    assert (EC : eval o env1 c = Ok (Vec v)).
    { apply eval_aside; [exact C|]. intros m0 Hm. refine (occurs_in _ _ c _ (HO m0 Hm)); cbn [In]; tauto. }
    assert (S' : scales (random base) (mf_p base) n (map (fun x => 1 / x) v)) by (unfold scales in *; now rewrite map_length).
    destruct (times_accepts f' _ n SF RF S') as (h & Hh & SH & RH & L). exists (Call [Name "/fr"; e'; c]), h.
    split; [apply (modify_two "/" "/fr" e c e' c (or_introl OE) NE (proj1 (proj2 C))); [cbn [In]; tauto|exact ME|exact (modify_Ok _ _ (proj1 (proj2 C)) (proj1 C))]|].
    split; [|split; [exact SH|split; [exact RH|]]].
    + rewrite (eval_two _ _ _ _ _ EE EC). unfold apply. cbn [String.eqb Ascii.eqb Bool.eqb]. unfold over_fr. now rewrite Hh.
    + intros beta b. rewrite L, LF. unfold by_rows. apply map_ext_in. intros k Hk. apply in_seq in Hk.
      assert (E : multiplier (map (fun x => 1 / x) v) k = 1 / multiplier v k).
      { destruct v as [|c0 [|c1 v]]; [destruct S as [S|(_ & S & _)]; cbn [length] in S; lia|reflexivity|]. destruct S as [S|(_ & S & _)]; [discriminate S|].
        cbn [map multiplier]. rewrite (nth_indep _ 0 (1 / 0)) by (cbn [length map]; rewrite map_length; cbn [length] in S; lia).
        exact (map_nth (fun x => 1 / x) (c0 :: c1 :: v) 0 k). }
      rewrite E. unfold Rdiv. ring.
Qed.
End Accept.

Theorem C78_accepted_main o data subvar base dims e n g :
  matrices base -> rows_of base = length (grid dims) -> linear o data subvar dims (random base) (mf_p base) e n g ->
  (forall flat, extract_to_flatten subvar e = Ok flat -> no_clash e flat) ->
  exists f, parse_sub o subvar base dims data e = Ok (Frame f) /\ matrices f /\ mf_p f = mf_p base /\ mf_q f = mf_q base /\ rows_of f = n /\ forall beta b, lin beta b f = g (lin beta b base).
Proof.
  intros HB HR HL HC. destruct (extract_linear o data subvar base dims e n g HL) as (fl & X & D). destruct (HC fl X) as [NC NI].
  destruct (linear_occurs o data subvar base dims e n g HL) as [OE _].
  assert (HF : exists fv, mapM (flat_var data dims) fl = Ok fv).
  { clear -D. induction fl as [|m fl IH]; [now eexists|]. destruct (D m (or_introl eq_refl)) as [p Hp]. destruct IH as [fv IH]; [intros; apply D; now right|]. exists (p :: fv). cbn [mapM]. now rewrite Hp, IH. }
  destruct HF as [fv HF]. assert (HJ : forall m, In m fl -> join m <> subvar) by (intros m Hm E; pose proof (NC m Hm); congruence).
  destruct (accepts o data subvar base dims HB HR fl fv HF NI HJ e n g HL NC) as (e' & f & ME & EE & S & RF & LF); [intros fl' X'; rewrite X in X'; injection X' as <-; apply incl_refl|].
  exists f. unfold parse_sub. rewrite ME, X. cbn [bind]. rewrite HF. cbn [bind]. split; [exact EE|]. destruct S as (M & P & Q & _). exact (conj M (conj P (conj Q (conj RF LF)))).
Qed.

(** * The form of what is accepted *)
Section Form.
Variable o : string -> list (list R) -> outcome (list R).
Variable data : env.
Variable subvar : string.
Variable base : mframe.
Variable dims : list Z.
Variable flat : list (list string).
Variable fv : list (string * value).
Hypothesis HP : plain data.
Hypothesis HN : forall s v, In (s, v) data -> s <> subvar.
Hypothesis HF : mapM (flat_var data dims) flat = Ok fv.
Let env1 : env := ((subvar, Frame base) :: fv ++ data)%list.

Lemma flat_value n p : flat_var data dims n = Ok p -> exists v, snd p = Vec v.
Proof.
  unfold flat_var. intros H. apply bind_Ok in H. destruct H as [is [_ H]]. destruct is as [|i is]; [discriminate H|].
  destruct (same_length (length i) (i :: is)); [|discriminate H]. injection H as <-. now eexists.
Qed.
Lemma flat_names n : In n flat -> ~ In subvar n.
Proof.
  intros Hn Hs. destruct (mapM_In _ _ _ n HF Hn) as [p [Hp _]]. unfold flat_var in Hp. apply bind_Ok in Hp. destruct Hp as [is [His _]].
  destruct (mapM_In _ _ _ subvar His Hs) as [i [Hi _]]. apply bind_Ok in Hi. destruct Hi as [v [G _]]. exact (HN _ _ (get_In _ _ _ G) eq_refl).
Qed.
Lemma plain_flat : plain (fv ++ data)%list.
Proof.
  intros s v H. apply in_app_or in H. destruct H as [H|H]; [|exact (HP s v H)]. destruct (mapM_In' _ _ _ (s, v) HF H) as [n [Hn _]].
  destruct (flat_value _ _ Hn) as [u Hu]. cbn [snd] in Hu. now rewrite Hu.
Qed.
Lemma other_value y w : occurs subvar y = false -> eval o env1 y = Ok w -> not_frame w.
Proof.
  intros O E. apply (eval_not_frame o (fv ++ data)%list y w plain_flat). rewrite <- E. apply eval_names. intros s Hs. unfold env1. rewrite get_cons.
  destruct (String.eqb_spec subvar s) as [->|_]; [congruence|reflexivity].
Qed.
Lemma forms x : all_calls (no_function subvar) x -> (forall fl, extract_to_flatten subvar x = Ok fl -> incl fl flat) -> (exists fl, extract_to_flatten subvar x = Ok fl) ->
  occurs subvar x = true -> forall x' w, modify_subexpr subvar x = Ok x' -> eval o env1 x' = Ok w -> form subvar x /\ exists f, w = Frame f.
Proof.
  induction x as [c|s|xs IH] using rexpr_ind'; intros W X XE HO x' w HM HE.
  - discriminate HO.
  - injection HM as <-. cbn [occurs] in HO. apply String.eqb_eq in HO. subst s. cbn [eval] in HE. unfold env1 in HE. rewrite get_cons, String.eqb_refl in HE.
    injection HE as <-. split; [constructor|now eexists].
  - assert (IH' : forall y, In y xs -> occurs subvar y = true -> forall y' w, modify_subexpr subvar y = Ok y' -> eval o env1 y' = Ok w -> form subvar y /\ exists f, w = Frame f).
    { intros y Hy. rewrite Forall_forall in IH. destruct XE as [fl E].
      assert (K : exists fy, extract_to_flatten subvar y = Ok fy /\ incl fy flat).
      { pose proof (X fl E) as I. rewrite extract_call in E. apply bind_Ok in E. destruct E as [inner [Ei E]]. apply bind_Ok in Ei. destruct Ei as [ls [El Ei]]. injection Ei as <-.
        destruct (mapM_In _ _ _ y El Hy) as [fy [Ey Iy]]. exists fy. split; [exact Ey|]. intros n Hn. apply I.
        assert (C : In n (concat ls)) by (apply in_concat; now exists fy).
        destruct xs as [|h [|a r]]; [injection E as <-; exact C|injection E as <-; exact C|].
        destruct (is_name h "[" && Nat.ltb 3 (length (h :: a :: r))); [|injection E as <-; exact C].
        apply bind_Ok in E. destruct E as [s [_ E]]. destruct s; [|injection E as <-; exact C].
        apply bind_Ok in E. destruct E as [tf [_ E]]. injection E as <-. now right. }
      destruct K as (fy & Ey & Iy). apply (IH y Hy).
      - apply all_calls_call in W. destruct W as [_ W]. rewrite Forall_forall in W. now apply W.
      - intros fl' E'. rewrite Ey in E'. now injection E' as <-.
      - now exists fy. }
    clear IH. rewrite modify_call_eq in HM. apply bind_Ok in HM. destruct HM as [ys [Hys HM]]. apply bind_Ok in HM. destruct HM as [zs [Hzs HM]]. injection HM as <-.
    apply mapM_Forall2 in Hys. unfold modify_call in Hzs. apply bind_Ok in Hzs. destruct Hzs as [s1 [H1 Hzs]]. apply bind_Ok in Hzs. destruct Hzs as [s2 [H2 Hzs]].
    apply all_calls_call in W. destruct W as [WN _].
    assert (ARG : forall y y' w, In y xs -> modify_subexpr subvar y = Ok y' -> eval o env1 y' = Ok w ->
       (occurs subvar y = true /\ form subvar y /\ exists f, w = Frame f) \/ (occurs subvar y = false /\ not_frame w)).
    { intros y y' w0 Hy My Ey. destruct (occurs subvar y) eqn:OY; [left; split; [reflexivity|exact (IH' y Hy OY y' w0 My Ey)]|right].
      pose proof (modify_same _ _ _ OY My) as ->. split; [reflexivity|exact (other_value _ _ OY Ey)]. }
    destruct (s1 || s2) eqn:S12.
    + destruct xs as [|h [|a rest]]; [injection H1 as <-; injection H2 as <-; discriminate S12|injection H1 as <-; injection H2 as <-; discriminate S12|].
      inversion Hys as [|? h' ? t' Mh Hys']; subst. inversion Hys' as [|? a' ? rest' Ma Hrest]; subst. clear Hys Hys'. apply status_occurs in H1.
      assert (E2 : match rest with [] => s2 = false | c :: _ => s2 = occurs subvar c end).
      { destruct rest as [|c r]; [now injection H2|]. now apply status_occurs in H2. }
      destruct (is_name h' "[" && s1 && negb s2) eqn:HB1.
      { apply andb_prop in HB1. destruct HB1 as [HB1 NB2]. apply andb_prop in HB1. destruct HB1 as [HB1 NB1]. apply is_name_eq in HB1. subst h'.
        apply modify_head in Mh. subst h. rewrite NB1 in H1. destruct s2; [discriminate NB2|]. clear NB1 NB2 S12 H2. cbn [length] in Hzs.
        destruct (Nat.ltb_spec 3 (S (S (length rest)))) as [L3|L3].
        - apply bind_Ok in Hzs. destruct Hzs as [n [Hn Hzs]]. injection Hzs as <-. pose proof (names_of_modify _ _ _ _ Hrest Hn) as ER.
          assert (IN : In n flat).
          { destruct XE as [fl EX]. apply (X fl EX). rewrite extract_call in EX. apply bind_Ok in EX. destruct EX as [inner [_ EX]].
            change (is_name (Name "[") "[") with true in EX. cbn [andb length] in EX.
            assert (L : Nat.ltb 3 (S (S (length rest))) = true) by (apply Nat.ltb_lt; exact L3). rewrite L in EX.
            apply bind_Ok in EX. destruct EX as [sa [Sa EX]]. apply status_occurs in Sa. rewrite <- H1 in Sa. subst sa. rewrite ER, names_of_Ok in EX. cbn [bind] in EX. injection EX as <-. now left. }
          rewrite eval_call in HE. apply bind_Ok in HE. destruct HE as [vs [Hvs HE]]. apply mapM_Forall2 in Hvs. inversion Hvs as [|? va ? vr Va Hvr]; subst.
          destruct (IH' a ltac:(right; now left) (eq_sym H1) a' va Ma Va) as [FA [f ->]]. split; [apply form_subsets; [exact FA|now apply flat_names]|].
          unfold apply in HE. cbn [String.eqb Ascii.eqb Bool.eqb] in HE. destruct vr as [|vi [|]]; try discriminate HE. apply bind_Ok in HE. destruct HE as [js [_ HE]].
          apply bind_Ok in HE. destruct HE as [hf [_ HE]]. injection HE as <-. now eexists.
        - injection Hzs as <-. rewrite eval_call in HE. apply bind_Ok in HE. destruct HE as [vs [Hvs HE]]. apply mapM_Forall2 in Hvs.
          inversion Hvs as [|? va ? vr Va Hvr]; subst. destruct (IH' a ltac:(right; now left) (eq_sym H1) a' va Ma Va) as [FA [f ->]].
          unfold apply in HE. cbn [String.eqb Ascii.eqb Bool.eqb] in HE. destruct vr as [|vi [|]]; try discriminate HE.
          inversion Hvr as [|i' ? rr ? Vi HN']; subst. inversion HN'; subst. inversion Hrest as [|i ? rr ? Mi HN'']; subst. inversion HN''; subst.
          apply bind_Ok in HE. destruct HE as [js [Hjs HE]]. apply bind_Ok in HE. destruct HE as [hf [Hh HE]]. injection HE as <-.
          split; [apply form_subset; [exact FA|now symmetry]|now eexists]. }
      clear HB1.
      assert (ARITH : forall f fr, zs = Name fr :: a' :: rest' -> h' = Name f -> fr = "+fr"%string \/ fr = "-fr"%string \/ fr = "*fr"%string \/ fr = "/fr"%string ->
         exists c c' wa wc, rest = [c] /\ rest' = [c'] /\ modify_subexpr subvar c = Ok c' /\ eval o env1 a' = Ok wa /\ eval o env1 c' = Ok wc /\ apply o fr [wa; wc] = Ok w).
      { intros f fr -> -> Hfr. rewrite eval_call in HE. apply bind_Ok in HE. destruct HE as [vs [Hvs HE]]. apply mapM_Forall2 in Hvs.
        inversion Hvs as [|? va ? vr Va Hvr]; subst.
        destruct vr as [|vc [|]]; [exfalso|clear Hvs|exfalso].
        - destruct Hfr as [->|[->|[->| ->]]]; unfold apply in HE; cbn [String.eqb Ascii.eqb Bool.eqb] in HE; destruct va; discriminate HE.
        - inversion Hvr as [|c' ? rr ? Vc HN']; subst. inversion HN'; subst. inversion Hrest as [|c ? rr ? Mc HN'']; subst. inversion HN''; subst.
          exists c, c', va, vc. repeat split; assumption.
        - destruct Hfr as [->|[->|[->| ->]]]; unfold apply in HE; cbn [String.eqb Ascii.eqb Bool.eqb] in HE; destruct va; try discriminate HE; destruct vc; discriminate HE. }
      destruct (is_name h' "+") eqn:HH.
      { apply is_name_eq in HH. injection Hzs as <-. destruct (ARITH _ _ eq_refl HH (or_introl eq_refl)) as [c [c' [wa [wc [-> [-> [Mc [Va [Vc HE2]]]]]]]]].
        subst h'. apply modify_head in Mh. subst h. unfold apply in HE2. cbn [String.eqb Ascii.eqb Bool.eqb] in HE2. destruct wa as [?|?|f|?]; try discriminate HE2.
        destruct wc as [?|?|g|?]; try discriminate HE2. apply bind_Ok in HE2. destruct HE2 as [hf [Hh HE2]]. injection HE2 as <-.
        destruct (ARG a a' _ ltac:(right; now left) Ma Va) as [[_ [FA _]]|[_ NF]]; [|destruct NF].
        destruct (ARG c c' _ ltac:(right; right; now left) Mc Vc) as [[_ [FC _]]|[_ NF]]; [|destruct NF]. split; [now apply form_plus|now eexists]. }
      clear HH. destruct (is_name h' "-") eqn:HH.
      { apply is_name_eq in HH. injection Hzs as <-. destruct (ARITH _ _ eq_refl HH (or_intror (or_introl eq_refl))) as [c [c' [wa [wc [-> [-> [Mc [Va [Vc HE2]]]]]]]]].
        subst h'. apply modify_head in Mh. subst h. unfold apply in HE2. cbn [String.eqb Ascii.eqb Bool.eqb] in HE2. destruct wa as [?|?|f|?]; try discriminate HE2.
        destruct wc as [?|?|g|?]; try discriminate HE2. apply bind_Ok in HE2. destruct HE2 as [hf [Hh HE2]]. injection HE2 as <-.
        destruct (ARG a a' _ ltac:(right; now left) Ma Va) as [[_ [FA _]]|[_ NF]]; [|destruct NF].
        destruct (ARG c c' _ ltac:(right; right; now left) Mc Vc) as [[_ [FC _]]|[_ NF]]; [|destruct NF]. split; [now apply form_minus|now eexists]. }
      clear HH. destruct (is_name h' "*") eqn:HH.
      { apply is_name_eq in HH. injection Hzs as <-. destruct (ARITH _ _ eq_refl HH (or_intror (or_intror (or_introl eq_refl)))) as [c [c' [wa [wc [-> [-> [Mc [Va [Vc HE2]]]]]]]]].
        subst h'. apply modify_head in Mh. subst h. unfold apply in HE2. cbn [String.eqb Ascii.eqb Bool.eqb] in HE2. destruct wa as [z|?|f|?]; try discriminate HE2.
        - destruct wc as [?|?|g|?]; try discriminate HE2. apply bind_Ok in HE2. destruct HE2 as [hf [Hh HE2]]. injection HE2 as <-.
          destruct (ARG a a' _ ltac:(right; now left) Ma Va) as [[_ [_ [? FA]]]|[OA _]]; [discriminate FA|].
          destruct (ARG c c' _ ltac:(right; right; now left) Mc Vc) as [[_ [FC _]]|[_ NF]]; [|destruct NF]. split; [now apply form_times_left|now eexists].
        - destruct wc as [z|?|?|?]; try discriminate HE2. apply bind_Ok in HE2. destruct HE2 as [hf [Hh HE2]]. injection HE2 as <-.
          destruct (ARG c c' _ ltac:(right; right; now left) Mc Vc) as [[_ [_ [? FC]]]|[OC _]]; [discriminate FC|].
          destruct (ARG a a' _ ltac:(right; now left) Ma Va) as [[_ [FA _]]|[_ NF]]; [|destruct NF]. split; [now apply form_times_right|now eexists]. }
      clear HH. destruct (is_name h' "/") eqn:HH; [|discriminate Hzs].
      { apply is_name_eq in HH. injection Hzs as <-. destruct (ARITH _ _ eq_refl HH (or_intror (or_intror (or_intror eq_refl)))) as [c [c' [wa [wc [-> [-> [Mc [Va [Vc HE2]]]]]]]]].
        subst h'. apply modify_head in Mh. subst h. unfold apply in HE2. cbn [String.eqb Ascii.eqb Bool.eqb] in HE2. destruct wa as [?|?|f|?]; try discriminate HE2.
        destruct wc as [z|?|?|?]; try discriminate HE2. apply bind_Ok in HE2. destruct HE2 as [hf [Hh HE2]]. injection HE2 as <-.
        destruct (ARG c c' _ ltac:(right; right; now left) Mc Vc) as [[_ [_ [? FC]]]|[OC _]]; [discriminate FC|].
        destruct (ARG a a' _ ltac:(right; now left) Ma Va) as [[_ [FA _]]|[_ NF]]; [|destruct NF]. split; [now apply form_over|now eexists]. }
    + exfalso. injection Hzs as <-. apply orb_false_iff in S12. destruct S12 as [-> ->]. destruct xs as [|h args]; [discriminate HO|].
      inversion Hys as [|? h' ? args' Mh Hargs]; subst. destruct h' as [?|f|?]; try discriminate HE. apply modify_head in Mh. subst h.
      cbn [no_function] in WN. rewrite occurs_call in HO. cbn [existsb occurs] in HO. destruct (String.eqb_spec f subvar) as [|_]; [contradiction|]. cbn [orb] in HO.
      apply existsb_exists in HO. destruct HO as [y [Hy OY]].
      destruct args as [|a [|c r]]; [destruct Hy|destruct Hy as [<-|[]]; apply status_occurs in H1; congruence|].
      apply status_occurs in H1, H2. destruct Hy as [<-|[<-|Hy]]; [congruence|congruence|].
      inversion Hargs as [|? a' ? t1 Ma Ht]; subst. inversion Ht as [|? c' ? r' Mc Hr]; subst.
      rewrite eval_call in HE. apply bind_Ok in HE. destruct HE as [vs [Hvs HE]]. apply mapM_Forall2 in Hvs.
      inversion Hvs as [|? va ? v1 Va Hv1]; subst. inversion Hv1 as [|? vc ? vr Vc Hvr]; subst.
      assert (FR : exists g, In (Frame g) vr).
      { assert (R : forall z, In z r -> occurs subvar z = true -> forall z' w, modify_subexpr subvar z = Ok z' -> eval o env1 z' = Ok w -> exists g, w = Frame g).
        { intros z Hz OZ z' w0 Mz Ez. apply (IH' z ltac:(right; right; now right) OZ z' w0 Mz Ez). }
        clear -Hr Hvr Hy OY R. revert vr Hvr. induction Hr as [|z z' r r' Mz Hr IH]; intros vr Hvr; [destruct Hy|].
        inversion Hvr as [|? vz ? vr' Vz Hvr']; subst. destruct Hy as [->|Hy].
        - destruct (R y (or_introl eq_refl) OY z' vz Mz Vz) as [g ->]. exists g. now left.
        - destruct (IH Hy (fun z Hz => R z (or_intror Hz)) vr' Hvr') as [g Hg]. exists g. now right. }
      destruct FR as [g Hg]. exact (apply_third o f va vc vr g w Hg HE).
Qed.
End Form.

Theorem C78_form_main o data subvar base dims e w :
  plain data -> (forall s v, In (s, v) data -> s <> subvar) -> all_calls (no_function subvar) e -> occurs subvar e = true ->
  parse_sub o subvar base dims data e = Ok w -> form subvar e /\ exists f, w = Frame f.
Proof.
  intros HP HN W O H. unfold parse_sub in H. apply bind_Ok in H. destruct H as [e' [HM H]]. apply bind_Ok in H. destruct H as [flat [HX H]]. apply bind_Ok in H. destruct H as [fv [HF H]].
  refine (forms o data subvar base dims flat fv HP HN HF e W _ _ O e' w HM H).
  - intros fl E. rewrite HX in E. injection E as <-. apply incl_refl.
  - now exists flat.
Qed.
