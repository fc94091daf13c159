(** Substituted expressions: the resulting frame has the linear predictor that the
    expression means. *)
From Coq Require Import FinFun String List Reals Bool Arith ZArith Lia Lra.
From Verif Require Import Model.Base Model.Indexing Model.Subexpr Spec.IndexSpec Spec.SubexprSpec Proofs.IndexMain Proofs.SubexprLemmas Proofs.FrameMain.
Import ListNotations.
Local Open Scope R_scope.

Lemma find_row_unique t rows k : NoDup rows -> (k < length rows)%nat -> nth k rows [] = t -> find_row t rows = Some k.
Proof.
  revert k. induction rows as [|r rows IH]; intros k N K E; [cbn [length] in K; lia|]. inversion N as [|? ? NI N']; subst.
  cbn [find_row]. destruct k as [|k]; cbn [nth] in *.
  - destruct (list_eq_dec Z.eq_dec r r); [reflexivity|easy].
  - cbn [length] in K. destruct (list_eq_dec Z.eq_dec r (nth k rows [])) as [D|D].
    + exfalso. apply NI. rewrite D. apply nth_In. lia.
    + rewrite (IH k N' ltac:(lia) eq_refl). reflexivity.
Qed.

Lemma Int_IZR l : map Int_part (map IZR l) = l.
Proof.
  rewrite map_map. rewrite <- map_id. apply map_ext. intros z. unfold Int_part.
  rewrite <- (tech_up (IZR z) (z + 1)); [lia| |]; rewrite plus_IZR; lra.
Qed.

Lemma F2_len {A B} (P : A -> B -> Prop) l l' : Forall2 P l l' -> length l = length l'.
Proof. intros H. induction H; cbn [length]; congruence. Qed.

Lemma grid_place' l k : (k < length (grid l))%nat -> exists t, nth k (grid l) [] = t /\ within l t.
Proof. intros K. exists (nth k (grid l) []). split; [reflexivity|]. apply grid_within. now apply nth_In. Qed.

Lemma grid_NoDup l : NoDup (grid l).
Proof.
  induction l as [|n l IH]; cbn [grid]; [repeat constructor; intros []|].
  assert (U : NoDup (upto n)).
  { unfold upto. apply FinFun.Injective_map_NoDup; [intros x y; apply Nat2Z.inj|apply seq_NoDup]. }
  revert IH. generalize (grid l). intros g G. induction G as [|t g NI G IH]; cbn [map concat]; [constructor|].
  assert (App : forall (A : list (list Z)) B, NoDup A -> NoDup B -> (forall x, In x A -> ~ In x B) -> NoDup (A ++ B)).
  { induction A as [|a A IHA]; intros B NA NB D; cbn [app]; [exact NB|]. inversion NA as [|? ? Na NA']; subst. constructor.
    - rewrite in_app_iff. intros [X|X]; [exact (Na X)|]. exact (D a (or_introl eq_refl) X).
    - apply IHA; [exact NA'|exact NB|]. intros x Hx. apply D. now right. }
  apply App; [|exact IH|].
  - apply FinFun.Injective_map_NoDup; [|exact U]. intros x y E. now injection E.
  - intros x Hx Hc. apply in_map_iff in Hx. destruct Hx as [i [<- _]]. apply in_concat in Hc. destruct Hc as [m [Hm Hi]].
    apply in_map_iff in Hm. destruct Hm as [t' [<- Ht']]. apply in_map_iff in Hi. destruct Hi as [j [E _]]. injection E as _ ->. exact (NI Ht').
Qed.

Lemma modify_head subvar x f : modify_subexpr subvar x = Ok (Name f) -> x = Name f.
Proof.
  destruct x as [c|s|xs]; [discriminate|now intros [= ->]|]. rewrite modify_call_eq. intros H. apply bind_Ok in H. destruct H as [ys [_ H]].
  apply bind_Ok in H. destruct H as [zs [_ H]]. discriminate H.
Qed.

Lemma names_of_map l n : names_of l = Ok n -> l = map Name n.
Proof.
  revert n. induction l as [|[c|s|xs] l IH]; intros n H; cbn [names_of] in H; try discriminate H; [now injection H as <-|].
  apply bind_Ok in H. destruct H as [r [Hr H]]. injection H as <-. cbn [map]. now rewrite (IH r Hr).
Qed.

Lemma names_of_modify subvar l l' n : Forall2 (fun x y => modify_subexpr subvar x = Ok y) l l' -> names_of l' = Ok n -> l = map Name n.
Proof.
  intros F H. apply names_of_map in H. subst l'. revert l F. induction n as [|s n IH]; intros l F; inversion F as [|x y l0 l1 Hxy F']; subst; [reflexivity|].
  cbn [map]. rewrite (modify_head _ _ _ Hxy). now rewrite (IH l0 F').
Qed.

Lemma names_of_Ok n : names_of (map Name n) = Ok n.
Proof. induction n as [|s n IH]; [reflexivity|]. cbn [map names_of]. now rewrite IH. Qed.

Section Main.
Variable o : string -> list (list R) -> outcome (list R).
Variable data : env.
Variable subvar : string.
Variable base : mframe.
Variable dims : list Z.
Variables beta b : list R.
Variable flat : list (list string).
Variable fv : list (string * value).
Hypothesis HB : matrices base.
Hypothesis HR : rows_of base = length (grid dims).
Hypothesis HP : plain data.
Hypothesis HF : mapM (flat_var data dims) flat = Ok fv.
Hypothesis HI : forall n m, In n flat -> In m flat -> join n = join m -> n = m.
Hypothesis HJ : forall n, In n flat -> join n <> subvar.
Let eta := lin beta b base.
Let env1 : env := (subvar, Frame base) :: fv ++ data.
Let env0 : env := (subvar, array dims eta) :: data.

Definition wf (xs : list rexpr) : Prop :=
  no_function subvar xs /\ dimension subvar (length dims) xs /\ subscripts o data subvar dims xs /\
  multipliers o data subvar (random base) dims (lin beta b base) xs.

Lemma flat_name n p : flat_var data dims n = Ok p -> fst p = join n.
Proof.
  unfold flat_var. intros H. apply bind_Ok in H. destruct H as [is [_ H]]. destruct is as [|i is]; [discriminate H|].
  destruct (same_length (length i) (i :: is)); [|discriminate H]. now injection H as <-.
Qed.

Lemma get_flat n p : In n flat -> flat_var data dims n = Ok p -> get env1 (join n) = Ok (snd p).
Proof.
  intros Hn Hp. unfold env1. rewrite get_cons. destruct (String.eqb_spec subvar (join n)) as [E|_]; [exfalso; exact (HJ n Hn (eq_sym E))|].
  rewrite get_app. assert (G : exists nv, find (fun nv => String.eqb (fst nv) (join n)) fv = Some nv).
  { destruct (find (fun nv => String.eqb (fst nv) (join n)) fv) as [nv|] eqn:E; [now exists nv|]. exfalso.
    destruct (mapM_In _ _ _ n HF Hn) as [y [Hy Iy]]. pose proof (find_none _ _ E y Iy) as F. cbn beta in F. rewrite (flat_name _ _ Hy), String.eqb_refl in F. discriminate F. }
  destruct G as [nv G]. rewrite G. apply find_some in G. destruct G as [I1 E1]. apply String.eqb_eq in E1.
  destruct (mapM_In' _ _ _ nv HF I1) as [m [Hm Im]]. rewrite (flat_name _ _ Hm) in E1. rewrite <- (HI _ _ Im Hn E1) in Hp. congruence.
Qed.

Lemma env_same x : occurs subvar x = false -> (forall n, In n flat -> occurs (join n) x = false) ->
  eval o env1 x = eval o data x /\ eval o env0 x = eval o data x.
Proof.
  intros HO HN. split; apply eval_names; intros s Hs.
  - unfold env1. rewrite get_cons. destruct (String.eqb_spec subvar s) as [->|_]; [congruence|]. rewrite get_app.
    destruct (find (fun nv => String.eqb (fst nv) s) fv) as [nv|] eqn:E; [|reflexivity]. exfalso. apply find_some in E. destruct E as [I1 E1].
    apply String.eqb_eq in E1. destruct (mapM_In' _ _ _ nv HF I1) as [m [Hm Im]]. rewrite (flat_name _ _ Hm) in E1. subst s. rewrite (HN m Im) in Hs. discriminate Hs.
  - unfold env0. rewrite get_cons. destruct (String.eqb_spec subvar s) as [->|_]; [congruence|]. reflexivity.
Qed.

Definition good (x : rexpr) : Prop :=
  all_calls wf x /\ (forall n, In n flat -> occurs (join n) x = false) /\ exists fl, extract_to_flatten subvar x = Ok fl /\ incl fl flat.

Lemma good_sub xs y : good (Call xs) -> In y xs -> good y.
Proof.
  intros [W [O [fl [E I]]]] Hy. split; [|split].
  - apply all_calls_call in W. destruct W as [_ W]. rewrite Forall_forall in W. now apply W.
  - intros n Hn. apply (occurs_in _ xs); [exact Hy|now apply O].
  - rewrite extract_call in E. apply bind_Ok in E. destruct E as [inner [Ei E]]. apply bind_Ok in Ei. destruct Ei as [ls [El Ei]]. injection Ei as <-.
    destruct (mapM_In _ _ _ y El Hy) as [fy [Ey Iy]]. exists fy. split; [exact Ey|]. intros n Hn. apply I.
    assert (C : In n (concat ls)) by (apply in_concat; now exists fy).
    destruct xs as [|h [|a r]]; [injection E as <-; exact C|injection E as <-; exact C|].
    destruct (is_name h "[" && Nat.ltb 3 (length (h :: a :: r))); [|injection E as <-; exact C].
    apply bind_Ok in E. destruct E as [s [_ E]]. destruct s; [|injection E as <-; exact C].
    apply bind_Ok in E. destruct E as [tf [_ E]]. injection E as <-. now right.
Qed.

Definition result (x : rexpr) (w : value) : Prop :=
  exists f, w = Frame f /\ shaped base f /\ exists v, eval o env0 x = Ok v /\ as_vec v = Ok (lin beta b f) /\
    (v = Vec (lin beta b f) \/ x = Name subvar /\ f = base /\ v = array dims eta).

Lemma shaped_trans f g h : shaped f g -> shaped g h -> shaped f h.
Proof. intros [_ [P [Q Z]]] [M [P' [Q' Z']]]. split; [exact M|]. split; [congruence|]. split; [congruence|]. tauto. Qed.

Lemma meaning_result x f v : eval o env0 x = Ok v -> as_vec v = Ok (lin beta b f) -> meaning o data subvar dims (lin beta b base) x = Ok (lin beta b f).
Proof. intros E A. unfold meaning. change ((subvar, array dims (lin beta b base)) :: data) with env0. rewrite E. exact A. Qed.

Lemma is_name_eq x s : is_name x s = true -> x = Name s.
Proof. destruct x; cbn [is_name]; try discriminate. intros H. apply String.eqb_eq in H. now subst. Qed.

(** One subscript. *)
Lemma result_index f is h v vi x : shaped base f -> as_vec v = Ok (lin beta b f) ->
  (v = Vec (lin beta b f) \/ x = Name subvar /\ f = base /\ v = array dims eta) ->
  (x = Name subvar -> length dims = 1%nat) -> as_index vi = Ok is -> index_fr f is = Ok h ->
  apply o "[" [v; vi] = Ok (Vec (lin beta b h)) /\ shaped base h.
Proof.
  intros S A C D I H. destruct (index_lin f is h (proj1 S) H) as [SH [RG E]]. split; [|exact (shaped_trans _ _ _ S SH)].
  unfold apply. cbn [String.eqb Ascii.eqb Bool.eqb mapM]. rewrite I. cbn [bind]. destruct C as [->|[-> [-> ->]]].
  - cbn [subscript]. rewrite (picks_Ok _ _ 0) by (rewrite lin_length; exact RG). cbn [bind]. now rewrite E.
  - unfold array. cbn [subscript same_length forallb]. rewrite Nat.eqb_refl. cbn [andb].
    destruct dims as [|n [|]] eqn:ED; try (specialize (D eq_refl); discriminate D).
    assert (T : tuples (length is) [is] = map (fun i => [i]) is).
    { unfold tuples. cbn [map]. clear. induction is as [|i is IH]; [reflexivity|]. cbn [length seq map nth]. f_equal.
      rewrite <- seq_shift, map_map. exact IH. }
    rewrite T, E. clear T E H I.
    assert (Q : mapM (array_at [n] eta) (map (fun i => [i]) is) = Ok (map (fun i => nth (Z.to_nat (i - 1)) eta 0) is)).
    { apply mapM_Forall2. induction RG as [|i is [R1 R2] RG IH]; cbn [map]; constructor; [|exact IH].
      unfold array_at. rewrite (find_row_unique [i] (grid [n]) (Z.to_nat (i - 1))).
      - unfold vec_at. rewrite (nth_error_nth' eta 0); [reflexivity|]. unfold eta. rewrite lin_length. exact R2.
      - apply grid_NoDup.
      - rewrite <- HR. exact R2.
      - assert (W : within [n] [i]).
        { constructor; [|constructor]. rewrite HR in R2. cbn [grid map concat] in R2. rewrite app_nil_r, map_length in R2. unfold upto in R2. rewrite map_length, seq_length in R2. lia. }
        pose proof (grid_place _ _ W) as P. cbn [place] in P. replace (Z.to_nat (i - 1)) with (Z.to_nat (i - 1 + n * 0)) by (f_equal; lia). exact P. }
    rewrite Q. reflexivity.
Qed.

(** Several. *)
Lemma result_indices n is h : In n flat -> mapM (fun s => v <- get data s ;; as_index v) n = Ok is -> is <> [] ->
  same_length (length (hd [] is)) is = true -> length n = length dims ->
  List.Forall (within dims) (tuples (length (hd [] is)) is) -> index_fr base (flatten_vars is dims) = Ok h ->
  mapM (array_at dims eta) (tuples (length (hd [] is)) is) = Ok (lin beta b h) /\ shaped base h.
Proof.
  intros Hn Hm Hne HS HL HW H. destruct (index_lin base _ h HB H) as [SH [RG E]]. split; [|exact SH]. rewrite E. clear E.
  set (k := length (hd [] is)) in *.
  assert (LI : length is = length dims) by (apply mapM_Forall2 in Hm; rewrite <- (F2_len _ _ _ Hm); exact HL).
  assert (LK : forall v, In v is -> length v = k).
  { unfold same_length in HS. rewrite forallb_forall in HS. intros v Hv. apply Nat.eqb_eq. now apply HS. }
  assert (WI : forall j, (j < k)%nat -> within dims (map (fun v => nth j v 0%Z) is)).
  { intros j Hj. rewrite Forall_forall in HW. apply HW. unfold tuples. apply in_map_iff. exists j. split; [reflexivity|]. apply in_seq. lia. }
  assert (ND : dims <> []) by (intros D; rewrite D in LI; destruct is; [now apply Hne|discriminate LI]).
  destruct (C40_main dims is k ND LI LK WI) as [FL FN].
  assert (J : flatten_vars is dims = map (fun j => nth j (flatten_vars is dims) 0%Z) (seq 0 k)).
  { apply (nth_ext _ _ 0%Z 0%Z); [now rewrite map_length, seq_length|]. intros j Hj. rewrite FL in Hj. now rewrite nth_map_seq0. }
  rewrite J, map_map. unfold tuples. apply mapM_Forall2. 
  assert (K : forall l, (forall j, In j l -> (j < k)%nat) ->
     Forall2 (fun x y => array_at dims eta x = Ok y) (map (fun j => map (fun i => nth j i 0%Z) is) l) (map (fun x => nth (Z.to_nat (nth x (flatten_vars is dims) 0%Z - 1)) eta 0) l)).
  { induction l as [|j l IH]; intros Q; cbn [map]; constructor; [|apply IH; intros; apply Q; now right].
    assert (Hj : (j < k)%nat) by (apply Q; now left). destruct (FN j Hj) as [F1 F2].
    assert (B : (Z.to_nat (nth j (flatten_vars is dims) 0%Z - 1) < length (grid dims))%nat).
    { pose proof (grid_length dims (within_pos _ _ (WI j Hj))) as GL. lia. }
    unfold array_at. rewrite (find_row_unique _ _ (Z.to_nat (nth j (flatten_vars is dims) 0%Z - 1)) (grid_NoDup dims) B F2).
    unfold vec_at. rewrite (nth_error_nth' eta 0); [reflexivity|]. unfold eta. rewrite lin_length, HR. exact B. }
  apply K. intros j Hj. apply in_seq in Hj. lia.
Qed.

Lemma fits_of f v (Hf : shaped base f) : (length v = 1%nat \/ random base = false /\ length (lin beta b f) = length v) -> fits f v.
Proof.
  intros [H|[HZ H]]; [now left|right]. rewrite lin_length in H. split; [|exact H]. destruct Hf as [_ [_ [_ Z]]]. apply Z.
  unfold random in HZ. destruct (mf_Zt base); [discriminate HZ|reflexivity].
Qed.

Lemma main x : good x -> occurs subvar x = true -> forall x' w, modify_subexpr subvar x = Ok x' -> eval o env1 x' = Ok w -> result x w.
Proof.
  induction x as [c|s|xs IH] using rexpr_ind'; intros G HO x' w HM HE.
  - discriminate HO.
  - injection HM as <-. cbn [occurs] in HO. apply String.eqb_eq in HO. subst s. cbn [eval] in HE. unfold env1 in HE. rewrite get_cons, String.eqb_refl in HE.
    injection HE as <-. exists base. split; [reflexivity|]. split; [unfold shaped; repeat split; try apply HB; tauto|].
    exists (array dims eta). cbn [eval]. unfold env0. rewrite get_cons, String.eqb_refl. repeat split. right. now repeat split.
  - assert (GS : forall y, In y xs -> good y) by (intros y Hy; exact (good_sub xs y G Hy)).
    assert (IH' : forall y, In y xs -> occurs subvar y = true -> forall y' w, modify_subexpr subvar y = Ok y' -> eval o env1 y' = Ok w -> result y w).
    { intros y Hy. rewrite Forall_forall in IH. apply (IH y Hy). now apply GS. }
    clear IH. rewrite modify_call_eq in HM. apply bind_Ok in HM. destruct HM as [ys [Hys HM]]. apply bind_Ok in HM. destruct HM as [zs [Hzs HM]]. injection HM as <-.
    apply mapM_Forall2 in Hys. unfold modify_call in Hzs. apply bind_Ok in Hzs. destruct Hzs as [s1 [H1 Hzs]]. apply bind_Ok in Hzs. destruct Hzs as [s2 [H2 Hzs]].
    destruct G as [W [N [fl [EX IX]]]]. apply all_calls_call in W. destruct W as [[WN [WD [WS WM]]] _].
    (* what is known of an argument *)
    assert (ARG : forall y y' w, In y xs -> modify_subexpr subvar y = Ok y' -> eval o env1 y' = Ok w ->
       (occurs subvar y = true /\ result y w) \/ (occurs subvar y = false /\ y' = y /\ not_frame w /\ eval o data y = Ok w /\ eval o env0 y = Ok w)).
    { intros y y' w0 Hy My Ey. destruct (occurs subvar y) eqn:OY; [left; split; [reflexivity|exact (IH' y Hy OY y' w0 My Ey)]|right].
      pose proof (modify_same _ _ _ OY My) as ->. destruct (env_same y OY (proj1 (proj2 (GS y Hy)))) as [E1 E0]. rewrite E1 in Ey.
      split; [reflexivity|]. split; [reflexivity|]. split; [exact (eval_not_frame _ _ _ _ HP Ey)|]. split; [exact Ey|]. now rewrite E0. }
    destruct (s1 || s2) eqn:S12.
    + destruct xs as [|h [|a rest]]; [injection H1 as <-; injection H2 as <-; discriminate S12|injection H1 as <-; injection H2 as <-; discriminate S12|].
      inversion Hys as [|? h' ? t' Mh Hys']; subst. inversion Hys' as [|? a' ? rest' Ma Hrest]; subst. clear Hys Hys'. apply status_occurs in H1.
      assert (E2 : match rest with [] => s2 = false | c :: _ => s2 = occurs subvar c end).
      { destruct rest as [|c r]; [now injection H2|]. now apply status_occurs in H2. }
      destruct (is_name h' "[" && s1 && negb s2) eqn:HB1.
      { (* subscripts *)
        apply andb_prop in HB1. destruct HB1 as [HB1 NB2]. apply andb_prop in HB1. destruct HB1 as [HB1 NB1]. apply is_name_eq in HB1. subst h'.
        apply modify_head in Mh. subst h. rewrite NB1 in H1. destruct s2; [discriminate NB2|]. clear NB1 NB2 S12 H2. cbn [length] in Hzs.
        destruct (Nat.ltb_spec 3 (S (S (length rest)))) as [L3|L3].
        - apply bind_Ok in Hzs. destruct Hzs as [n [Hn Hzs]]. injection Hzs as <-. pose proof (names_of_modify _ _ _ _ Hrest Hn) as ER.
          cbn [subscripts] in WS. destruct (WS eq_refl ltac:(lia) (eq_sym H1)) as [-> [NO WI]]. clear WS. cbn [modify_subexpr] in Ma. injection Ma as <-.
          assert (IN : In n flat).
          { apply IX. rewrite extract_call in EX. apply bind_Ok in EX. destruct EX as [inner [_ EX]].
            change (is_name (Name "[") "[") with true in EX. cbn [andb length] in EX.
            assert (L : Nat.ltb 3 (S (S (length rest))) = true) by (apply Nat.ltb_lt; exact L3). rewrite L in EX.
            cbn [find_sub_status] in EX. rewrite String.eqb_refl in EX. cbn [bind] in EX. rewrite ER, names_of_Ok in EX. cbn [bind] in EX. injection EX as <-. now left. }
          rewrite eval_call in HE. cbn [mapM] in HE. cbn [eval] in HE. 
          destruct (mapM_In _ _ _ n HF IN) as [p [Hp _]]. rewrite (get_flat n p IN Hp) in HE.
          assert (GB : get env1 subvar = Ok (Frame base)) by (unfold env1; now rewrite get_cons, String.eqb_refl). rewrite GB in HE. cbn [bind] in HE.
          unfold flat_var in Hp. apply bind_Ok in Hp. destruct Hp as [is [His Hp]]. destruct is as [|i is]; [discriminate Hp|].
          destruct (same_length (length i) (i :: is)) eqn:SL; [|discriminate Hp]. injection Hp as <-. cbn [snd] in HE.
          unfold apply in HE. cbn [String.eqb Ascii.eqb Bool.eqb as_index bind] in HE. rewrite Int_IZR in HE. apply bind_Ok in HE. destruct HE as [h [Hh HE]]. injection HE as <-.
          cbn [dimension] in WD. specialize (WD eq_refl eq_refl). rewrite ER, map_length in WD.
          assert (NS : forall s, In s n -> s <> subvar).
          { intros s Hs ->. rewrite Forall_forall in NO. assert (Z : occurs subvar (Name subvar) = false) by (apply NO; rewrite ER; now apply in_map).
            cbn [occurs] in Z. rewrite String.eqb_refl in Z. discriminate Z. }
          assert (V : exists vs, mapM (eval o env0) rest = Ok vs /\ mapM as_index vs = Ok (i :: is) /\ mapM (fun r => v <- eval o data r ;; as_index v) rest = Ok (i :: is)).
          { rewrite ER. clear -His NS. revert His. generalize (i :: is). intros l His. apply mapM_Forall2 in His. revert NS. induction His as [|s j n l Hs F IHF]; intros NS.
            - exists []. repeat split.
            - destruct IHF as [vs [V1 [V2 V3]]]; [intros s' Hs'; apply NS; now right|]. apply bind_Ok in Hs. destruct Hs as [v [Gv Av]].
              exists (v :: vs). cbn [map mapM eval]. unfold env0 at 1. rewrite get_cons. destruct (String.eqb_spec subvar s) as [E|_]; [exfalso; apply (NS s); [now left|now symmetry]|].
              rewrite Gv. cbn [bind]. rewrite V1, Av. cbn [bind]. rewrite V2, V3. cbn [bind]. repeat split. }
          destruct V as [vs [V1 [V2 V3]]]. specialize (WI _ V3).
          destruct (result_indices n (i :: is) h IN His ltac:(discriminate) SL WD WI Hh) as [Q SH].
          exists h. split; [reflexivity|]. split; [exact SH|]. exists (Vec (lin beta b h)). split; [|split; [reflexivity|now left]].
          rewrite eval_call. cbn [mapM]. rewrite V1. cbn [eval]. assert (G0 : get env0 subvar = Ok (array dims eta)) by (unfold env0; now rewrite get_cons, String.eqb_refl).
          rewrite G0. cbn [bind]. unfold apply. cbn [String.eqb Ascii.eqb Bool.eqb]. rewrite V2. cbn [bind]. unfold array. cbn [subscript]. rewrite SL.
          cbn [hd] in Q. rewrite Q. reflexivity.
        - injection Hzs as <-. rewrite eval_call in HE. apply bind_Ok in HE. destruct HE as [vs [Hvs HE]]. apply mapM_Forall2 in Hvs.
          inversion Hvs as [|? va ? vr Va Hvr]; subst. destruct (ARG a a' va ltac:(right; now left) Ma Va) as [[_ R]|[F _]]; [|congruence].
          destruct R as [f [-> [SF [v [Ev [Av Cv]]]]]].
          unfold apply in HE. cbn [String.eqb Ascii.eqb Bool.eqb] in HE. destruct vr as [|vi [|]]; try discriminate HE.
          inversion Hvr as [|i' ? rr ? Vi HN]; subst. inversion HN; subst. inversion Hrest as [|i ? rr ? Mi HN']; subst. inversion HN'; subst. clear HN HN' Hvr Hvs Hrest.
          apply bind_Ok in HE. destruct HE as [js [Hjs HE]]. apply bind_Ok in HE. destruct HE as [hf [Hh HE]]. injection HE as <-.
          destruct (ARG i i' vi ltac:(right; right; now left) Mi Vi) as [[OT _]|[_ [-> [_ [Di D0]]]]]; [congruence|].
          destruct (result_index f js hf v vi a SF Av Cv) as [Q SH]; [|exact Hjs|exact Hh|].
          { intros ->. cbn [dimension] in WD. symmetry. exact (WD eq_refl eq_refl). }
          exists hf. split; [reflexivity|]. split; [exact SH|]. exists (Vec (lin beta b hf)). split; [|split; [reflexivity|now left]].
          rewrite eval_call. cbn [mapM]. rewrite Ev, D0. cbn [bind]. exact Q. }
      clear HB1.
      (* arithmetic: the two arguments *)
      assert (ARITH : forall f fr, zs = Name fr :: a' :: rest' -> h' = Name f -> fr = "+fr"%string \/ fr = "-fr"%string \/ fr = "*fr"%string \/ fr = "/fr"%string ->
         exists c c' wa wc, rest = [c] /\ rest' = [c'] /\ modify_subexpr subvar c = Ok c' /\ eval o env1 a' = Ok wa /\ eval o env1 c' = Ok wc /\ apply o fr [wa; wc] = Ok w).
      { intros f fr -> -> Hfr. rewrite eval_call in HE. apply bind_Ok in HE. destruct HE as [vs [Hvs HE]]. apply mapM_Forall2 in Hvs.
        inversion Hvs as [|? va ? vr Va Hvr]; subst.
        destruct vr as [|vc [|]]; [exfalso|clear Hvs|exfalso].
        - destruct Hfr as [->|[->|[->| ->]]]; unfold apply in HE; cbn [String.eqb Ascii.eqb Bool.eqb] in HE; destruct va; discriminate HE.
        - inversion Hvr as [|c' ? rr ? Vc HN]; subst. inversion HN; subst. inversion Hrest as [|c ? rr ? Mc HN']; subst. inversion HN'; subst.
          exists c, c', va, vc. repeat split; assumption.
        - destruct Hfr as [->|[->|[->| ->]]]; unfold apply in HE; cbn [String.eqb Ascii.eqb Bool.eqb] in HE; destruct va; try discriminate HE; destruct vc; discriminate HE. }
      assert (OC : forall c, rest = [c] -> occurs subvar a = true \/ occurs subvar c = true).
      { intros c ->. rewrite E2, H1 in S12. apply orb_prop in S12. exact S12. }
      destruct (is_name h' "+") eqn:HH.
      { apply is_name_eq in HH. injection Hzs as <-. destruct (ARITH _ _ eq_refl HH (or_introl eq_refl)) as [c [c' [wa [wc [-> [-> [Mc [Va [Vc HE2]]]]]]]]].
        subst h'. apply modify_head in Mh. subst h. unfold apply in HE2. cbn [String.eqb Ascii.eqb Bool.eqb] in HE2. destruct wa as [?|?|f|?]; try discriminate HE2.
        destruct wc as [?|?|g|?]; try discriminate HE2. apply bind_Ok in HE2. destruct HE2 as [hf [Hh HE2]]. injection HE2 as <-.
        destruct (ARG a a' _ ltac:(right; now left) Ma Va) as [[_ [f' [Ef [SF [v [Ev [Av Cv]]]]]]]|[_ [_ [NF _]]]]; [|destruct NF]. injection Ef as <-.
        destruct (ARG c c' _ ltac:(right; right; now left) Mc Vc) as [[_ [g' [Eg [SG [u [Eu [Au Cu]]]]]]]|[_ [_ [NF _]]]]; [|destruct NF]. injection Eg as <-.
        destruct (plus_lin f g hf beta b (proj1 SF) (proj1 SG) Hh) as [SH L]. exists hf. split; [reflexivity|]. split; [exact (shaped_trans _ _ _ SF SH)|].
        exists (Vec (lin beta b hf)). split; [|split; [reflexivity|now left]]. rewrite eval_call. cbn [mapM]. rewrite Ev, Eu. cbn [bind].
        unfold apply. cbn [String.eqb Ascii.eqb Bool.eqb]. unfold arith. rewrite Av, Au. cbn [bind]. now rewrite L. }
      clear HH. destruct (is_name h' "-") eqn:HH.
      { apply is_name_eq in HH. injection Hzs as <-. destruct (ARITH _ _ eq_refl HH (or_intror (or_introl eq_refl))) as [c [c' [wa [wc [-> [-> [Mc [Va [Vc HE2]]]]]]]]].
        subst h'. apply modify_head in Mh. subst h. unfold apply in HE2. cbn [String.eqb Ascii.eqb Bool.eqb] in HE2. destruct wa as [?|?|f|?]; try discriminate HE2.
        destruct wc as [?|?|g|?]; try discriminate HE2. apply bind_Ok in HE2. destruct HE2 as [hf [Hh HE2]]. injection HE2 as <-.
        destruct (ARG a a' _ ltac:(right; now left) Ma Va) as [[_ [f' [Ef [SF [v [Ev [Av Cv]]]]]]]|[_ [_ [NF _]]]]; [|destruct NF]. injection Ef as <-.
        destruct (ARG c c' _ ltac:(right; right; now left) Mc Vc) as [[_ [g' [Eg [SG [u [Eu [Au Cu]]]]]]]|[_ [_ [NF _]]]]; [|destruct NF]. injection Eg as <-.
        destruct (minus_lin f g hf beta b (proj1 SF) (proj1 SG) Hh) as [SH L]. exists hf. split; [reflexivity|]. split; [exact (shaped_trans _ _ _ SF SH)|].
        exists (Vec (lin beta b hf)). split; [|split; [reflexivity|now left]]. rewrite eval_call. cbn [mapM]. rewrite Ev, Eu. cbn [bind].
        unfold apply. cbn [String.eqb Ascii.eqb Bool.eqb]. unfold arith. rewrite Av, Au. cbn [bind]. now rewrite L. }
      clear HH. destruct (is_name h' "*") eqn:HH.
      { apply is_name_eq in HH. injection Hzs as <-. destruct (ARITH _ _ eq_refl HH (or_intror (or_intror (or_introl eq_refl)))) as [c [c' [wa [wc [-> [-> [Mc [Va [Vc HE2]]]]]]]]].
        subst h'. apply modify_head in Mh. subst h. cbn [multipliers] in WM. destruct (WM (or_introl eq_refl)) as [WM1 WM2]. clear WM.
        unfold apply in HE2. cbn [String.eqb Ascii.eqb Bool.eqb] in HE2. destruct wa as [z|?|f|?]; try discriminate HE2.
        - destruct wc as [?|?|g|?]; try discriminate HE2. apply bind_Ok in HE2. destruct HE2 as [hf [Hh HE2]]. injection HE2 as <-.
          destruct (ARG a a' _ ltac:(right; now left) Ma Va) as [[_ [f' [Ef _]]]|[OA [_ [_ [Da D0]]]]]; [discriminate Ef|].
          destruct (ARG c c' _ ltac:(right; right; now left) Mc Vc) as [[OC' [g' [Eg [SG [u [Eu [Au Cu]]]]]]]|[_ [_ [NF _]]]]; [|destruct NF]. injection Eg as <-.
          assert (FT : fits g z).
          { apply fits_of; [exact SG|]. destruct (WM2 OA OC' z Da) as [?|[? Q]]; [now left|right]. split; [assumption|]. apply Q. exact (meaning_result _ _ _ Eu Au). }
          exists hf. split; [reflexivity|]. split; [exact (shaped_trans _ _ _ SG (proj1 (times_shaped _ _ _ (proj1 SG) Hh)))|].
          exists (Vec (lin beta b hf)). split; [|split; [reflexivity|now left]]. rewrite eval_call. cbn [mapM]. rewrite D0, Eu. cbn [bind].
          unfold apply. cbn [String.eqb Ascii.eqb Bool.eqb]. unfold arith. cbn [as_vec]. rewrite Au. cbn [bind].
          rewrite (times_lin g z hf beta b (proj1 SG) FT Hh). rewrite recycle_swap by (intros; apply Rmult_comm). reflexivity.
        - destruct wc as [z|?|?|?]; try discriminate HE2. apply bind_Ok in HE2. destruct HE2 as [hf [Hh HE2]]. injection HE2 as <-.
          destruct (ARG c c' _ ltac:(right; right; now left) Mc Vc) as [[_ [f' [Ef _]]]|[OA [_ [_ [Da D0]]]]]; [discriminate Ef|].
          destruct (ARG a a' _ ltac:(right; now left) Ma Va) as [[OC' [g' [Eg [SG [u [Eu [Au Cu]]]]]]]|[_ [_ [NF _]]]]; [|destruct NF]. injection Eg as <-.
          assert (FT : fits f z).
          { apply fits_of; [exact SG|]. destruct (WM1 OC' OA z Da) as [?|[? Q]]; [now left|right]. split; [assumption|]. apply Q. exact (meaning_result _ _ _ Eu Au). }
          exists hf. split; [reflexivity|]. split; [exact (shaped_trans _ _ _ SG (proj1 (times_shaped _ _ _ (proj1 SG) Hh)))|].
          exists (Vec (lin beta b hf)). split; [|split; [reflexivity|now left]]. rewrite eval_call. cbn [mapM]. rewrite D0, Eu. cbn [bind].
          unfold apply. cbn [String.eqb Ascii.eqb Bool.eqb]. unfold arith. cbn [as_vec]. rewrite Au. cbn [bind].
          rewrite (times_lin f z hf beta b (proj1 SG) FT Hh). reflexivity. }
      clear HH. destruct (is_name h' "/") eqn:HH; [|discriminate Hzs].
      { apply is_name_eq in HH. injection Hzs as <-. destruct (ARITH _ _ eq_refl HH (or_intror (or_intror (or_intror eq_refl)))) as [c [c' [wa [wc [-> [-> [Mc [Va [Vc HE2]]]]]]]]].
        subst h'. apply modify_head in Mh. subst h. cbn [multipliers] in WM. destruct (WM (or_intror eq_refl)) as [WM1 _]. clear WM.
        unfold apply in HE2. cbn [String.eqb Ascii.eqb Bool.eqb] in HE2. destruct wa as [?|?|f|?]; try discriminate HE2.
        destruct wc as [z|?|?|?]; try discriminate HE2. apply bind_Ok in HE2. destruct HE2 as [hf [Hh HE2]]. injection HE2 as <-.
        destruct (ARG c c' _ ltac:(right; right; now left) Mc Vc) as [[_ [f' [Ef _]]]|[OA [_ [_ [Da D0]]]]]; [discriminate Ef|].
        destruct (ARG a a' _ ltac:(right; now left) Ma Va) as [[OC' [g' [Eg [SG [u [Eu [Au Cu]]]]]]]|[_ [_ [NF _]]]]; [|destruct NF]. injection Eg as <-.
        assert (FT : fits f z).
        { apply fits_of; [exact SG|]. destruct (WM1 OC' OA z Da) as [?|[? Q]]; [now left|right]. split; [assumption|]. apply Q. exact (meaning_result _ _ _ Eu Au). }
        exists hf. split; [reflexivity|]. split; [exact (shaped_trans _ _ _ SG (proj1 (times_shaped _ _ _ (proj1 SG) Hh)))|].
        exists (Vec (lin beta b hf)). split; [|split; [reflexivity|now left]]. rewrite eval_call. cbn [mapM]. rewrite D0, Eu. cbn [bind].
        unfold apply. cbn [String.eqb Ascii.eqb Bool.eqb]. unfold arith. cbn [as_vec]. rewrite Au. cbn [bind].
        rewrite (over_lin f z hf beta b (proj1 SG) FT Hh). reflexivity. }
    + exfalso. injection Hzs as <-. apply orb_false_iff in S12. destruct S12 as [-> ->]. destruct xs as [|h args]; [discriminate HO|].
      inversion Hys as [|? h' ? args' Mh Hargs]; subst. destruct h' as [?|f|?]; try discriminate HE. apply modify_head in Mh. subst h.
      cbn [no_function] in WN. rewrite occurs_call in HO. cbn [existsb occurs] in HO. destruct (String.eqb_spec f subvar) as [|_]; [contradiction|]. cbn [orb] in HO.
      apply existsb_exists in HO. destruct HO as [y [Hy OY]].
      destruct args as [|a [|c r]]; [destruct Hy|destruct Hy as [<-|[]]; apply status_occurs in H1; congruence|].
      apply status_occurs in H1, H2. destruct Hy as [<-|[<-|Hy]]; [congruence|congruence|].
      inversion Hargs as [|? a' ? t1 Ma Ht]; subst. inversion Ht as [|? c' ? r' Mc Hr]; subst.
      rewrite eval_call in HE. apply bind_Ok in HE. destruct HE as [vs [Hvs HE]]. apply mapM_Forall2 in Hvs.
      inversion Hvs as [|? va ? v1 Va Hv1]; subst. inversion Hv1 as [|? vc ? vr Vc Hvr]; subst.
      assert (FR : exists g, In (Frame g) vr).
      { assert (R : forall z, In z r -> occurs subvar z = true -> forall z' w, modify_subexpr subvar z = Ok z' -> eval o env1 z' = Ok w -> result z w).
        { intros z Hz. apply IH'. right. right. now right. }
        clear -Hr Hvr Hy OY R. revert vr Hvr. induction Hr as [|z z' r r' Mz Hr IH]; intros vr Hvr; [destruct Hy|].
        inversion Hvr as [|? vz ? vr' Vz Hvr']; subst. destruct Hy as [->|Hy].
        - destruct (R y (or_introl eq_refl) OY z' vz Mz Vz) as [g [-> _]]. exists g. now left.
        - destruct (IH Hy (fun z Hz => R z (or_intror Hz)) vr' Hvr') as [g Hg]. exists g. now right. }
      destruct FR as [g Hg]. exact (apply_third o f va vc vr g w Hg HE).
Qed.
End Main.

Theorem C41_linear_main o data subvar base dims e flat f beta b :
  matrices base -> rows_of base = length (grid dims) -> plain data ->
  find_dim_sub subvar None e = Ok (Some (length dims)) -> extract_to_flatten subvar e = Ok flat -> no_clash e flat ->
  all_calls (no_function subvar) e -> all_calls (subscripts o data subvar dims) e ->
  all_calls (multipliers o data subvar (random base) dims (lin beta b base)) e ->
  parse_sub o subvar base dims data e = Ok (Frame f) ->
  meaning o data subvar dims (lin beta b base) e = Ok (lin beta b f) /\ matrices f /\ mf_p f = mf_p base /\ mf_q f = mf_q base /\ random f = random base.
Proof.
  intros HB HR HP HD HX [NC NI] W1 W2 W3 H. unfold parse_sub in H. apply bind_Ok in H. destruct H as [e' [HM H]]. rewrite HX in H. cbn [bind] in H.
  apply bind_Ok in H. destruct H as [fv [HF H]]. pose proof (proj2 (find_dim_keep subvar e) _ _ HD) as WD.
  assert (W : all_calls (wf o data subvar base dims beta b) e).
  { clear -W1 W2 W3 WD. induction e as [c|s|xs IH] using rexpr_ind'; [exact I|exact I|]. apply all_calls_call in W1, W2, W3, WD. apply all_calls_call.
    destruct W1 as [A1 B1], W2 as [A2 B2], W3 as [A3 B3], WD as [A4 B4]. split; [unfold wf; tauto|].
    apply Forall_forall. intros x Hx. rewrite Forall_forall in *. apply IH; auto. }
  destruct (occurs subvar e) eqn:O.
  - assert (HJ : forall n, In n flat -> join n <> subvar) by (intros n Hn E; pose proof (NC n Hn); congruence).
    destruct (main o data subvar base dims beta b flat fv HB HR HP HF NI HJ e) with (x' := e') (w := Frame f) as [g [Eg [S [v [Ev [Av _]]]]]].
    + split; [exact W|]. split; [exact NC|]. exists flat. split; [exact HX|apply incl_refl].
    + exact O.
    + exact HM.
    + exact H.
    + injection Eg as <-. split; [exact (meaning_result o data subvar base dims beta b e f v Ev Av)|]. destruct S as [M [P [Q Z]]]. refine (conj M (conj P (conj Q _))). unfold random. destruct (mf_Zt f), (mf_Zt base); try reflexivity; [discriminate (proj2 Z eq_refl)|discriminate (proj1 Z eq_refl)].
  - exfalso. pose proof (modify_same _ _ _ O HM) as ->.
    assert (HD0 : find_dim_sub subvar None e = Ok None).
    { clear -O. induction e as [c|s|xs IH] using rexpr_ind'; [reflexivity|reflexivity|]. rewrite find_dim_call.
      assert (E : forall l, (forall y, In y l -> occurs subvar y = false) -> List.Forall (fun x => occurs subvar x = false -> find_dim_sub subvar None x = Ok None) l -> dims_go subvar None l = Ok None).
      { induction l as [|y l IHl]; intros A B; [reflexivity|]. inversion B as [|? ? By Bl]; subst. cbn [dims_go]. rewrite By by (apply A; now left). cbn [bind].
        apply IHl; [intros z Hz; apply A; now right|exact Bl]. }
      assert (A : forall y, In y xs -> occurs subvar y = false) by (intros y Hy; exact (occurs_in _ xs y Hy O)).
      specialize (E xs A IH). destruct xs as [|h [|a r]]; try exact E.
      destruct (is_name h "[" && is_name a subvar) eqn:Q; [|exact E]. apply andb_prop in Q. destruct Q as [_ Q]. apply is_name_eq in Q. subst a.
      specialize (A (Name subvar) ltac:(right; now left)). cbn [occurs] in A. rewrite String.eqb_refl in A. discriminate A. }
    congruence.
Qed.

(** Numbers are refused next to anything. *)
Lemma has_number_call xs : has_number (Call xs) = existsb has_number xs.
Proof. cbn [has_number]. induction xs as [|y xs IH]; [reflexivity|]. cbn [existsb]. now rewrite <- IH. Qed.
Lemma status_number subvar x b : find_sub_status subvar x = Ok b -> has_number x = false.
Proof.
  revert b. induction x as [c|s|xs IH] using rexpr_ind'; intros b H; [discriminate H|reflexivity|].
  rewrite status_call in H. apply bind_Ok in H. destruct H as [bs [Hbs _]]. apply mapM_Forall2 in Hbs. rewrite has_number_call.
  induction Hbs as [|y c xs bs Hy Hbs IHb]; [reflexivity|]. inversion IH as [|? ? IHy IHxs]; subst. cbn [existsb]. rewrite (IHy c Hy). exact (IHb IHxs).
Qed.

Lemma modified_no_numbers subvar e e' : modify_subexpr subvar e = Ok e' -> all_calls no_numbers e.
Proof.
  revert e'. induction e as [c|s|xs IH] using rexpr_ind'; intros e' H; [exact I|exact I|]. rewrite modify_call_eq in H.
  apply bind_Ok in H. destruct H as [ys [Hys H]]. apply bind_Ok in H. destruct H as [zs [Hzs _]]. apply all_calls_call. split.
  - unfold modify_call in Hzs. apply bind_Ok in Hzs. destruct Hzs as [b1 [H1 Hzs]]. apply bind_Ok in Hzs. destruct Hzs as [b2 [H2 _]].
    destruct xs as [|h [|a [|c r]]]; unfold no_numbers; cbn [tl firstn]; repeat constructor; eapply status_number; eassumption.
  - apply mapM_Forall2 in Hys. clear Hzs. induction Hys as [|y y' xs ys Hy Hys IHy]; [constructor|]. inversion IH as [|? ? IH1 IH2]; subst.
    constructor; [exact (IH1 _ Hy)|exact (IHy IH2)].
Qed.

(** What these functions return is a value or an error of R. *)
Definition value_or_error {A} (o : outcome A) : Prop := match o with Ok _ => True | Throw RuntimeError => True | _ => False end.
Lemma voe_bind {A B} (o : outcome A) (f : A -> outcome B) : value_or_error o -> (forall a, value_or_error (f a)) -> value_or_error (bind o f).
Proof. destruct o; cbn; auto. Qed.
Lemma voe_mapM {A B} (f : A -> outcome B) l : List.Forall (fun x => value_or_error (f x)) l -> value_or_error (mapM f l).
Proof. induction 1 as [|x l H _ IH]; [exact I|]. cbn [mapM]. apply voe_bind; [exact H|]. intros b. apply voe_bind; [exact IH|]. intros; exact I. Qed.
Lemma voe_status subvar x : value_or_error (find_sub_status subvar x).
Proof.
  induction x as [c|s|xs IH] using rexpr_ind'; [exact I|exact I|]. rewrite status_call. apply voe_bind; [now apply voe_mapM|]. intros; exact I.
Qed.
Lemma voe_names xs : value_or_error (names_of xs).
Proof. induction xs as [|[c|s|ys] xs IH]; try exact I. cbn [names_of]. apply voe_bind; [exact IH|]. intros; exact I. Qed.
Lemma voe_modify_call subvar xs ys : value_or_error (modify_call subvar xs ys).
Proof.
  unfold modify_call. apply voe_bind; [destruct xs as [|? [|? ?]]; try exact I; apply voe_status|]. intros b1.
  apply voe_bind; [destruct xs as [|? [|? [|? ?]]]; try exact I; apply voe_status|]. intros b2.
  destruct (b1 || b2); [|exact I]. destruct ys as [|h [|a rest]]; try exact I.
  destruct (is_name h "[" && b1 && negb b2).
  - destruct (Nat.ltb 3 (length xs)); [|exact I]. apply voe_bind; [apply voe_names|]. intros; exact I.
  - destruct (is_name h "+"); [exact I|]. destruct (is_name h "-"); [exact I|]. destruct (is_name h "*"); [exact I|].
    destruct (is_name h "/"); exact I.
Qed.
Lemma voe_modify subvar e : value_or_error (modify_subexpr subvar e).
Proof.
  induction e as [c|s|xs IH] using rexpr_ind'; [exact I|exact I|]. rewrite modify_call_eq. apply voe_bind; [now apply voe_mapM|]. intros ys.
  apply voe_bind; [apply voe_modify_call|]. intros; exact I.
Qed.
Theorem C41_no_numbers_main subvar e : ~ all_calls no_numbers e -> modify_subexpr subvar e = Throw RuntimeError.
Proof.
  intros N. pose proof (voe_modify subvar e) as V. destruct (modify_subexpr subvar e) as [e'|ex| |] eqn:E.
  - exfalso. exact (N (modified_no_numbers subvar e e' E)).
  - destruct ex; try contradiction V; reflexivity.
  - contradiction V.
  - contradiction V.
Qed.
