(** What is printed of a fit. *)
From Coq Require Import String List Arith Reals Bool Lia Lra.
From Verif Require Import Model.Base Model.Fit Model.Report Spec.ReportSpec Proofs.SubexprLemmas Proofs.FitCases.
Import ListNotations.
Local Open Scope R_scope.
Local Open Scope string_scope.
Notation length := List.length.

Lemma select_random (x : list R) n : (1 <= n)%nat -> (n <= length x)%nat -> select x (colon 1 n) = map Some (firstn n x).
Proof.
  intros A B. unfold colon. destruct (Nat.leb_spec 1 n); [|lia]. replace (n - 1 + 1)%nat with n by lia. rewrite (select_seq x n 0) by lia. reflexivity.
Qed.
Lemma select_fixed (x : list R) n b : (1 <= b)%nat -> length x = (n + b)%nat -> select x (colon (n + 1) (b + n)) = map Some (skipn n x).
Proof.
  intros A B. unfold colon. destruct (Nat.leb_spec (n + 1) (b + n)); [|lia]. replace (b + n - (n + 1) + 1)%nat with b by lia. rewrite Nat.add_1_r, select_seq by lia.
  f_equal. apply firstn_all2. rewrite skipn_length. lia.
Qed.
Lemma recycles_same n : (1 <= n)%nat -> recycles n n = true.
Proof. intros H. unfold recycles. destruct (Nat.leb_spec 1 n); [|lia]. rewrite Nat.mod_same by lia. reflexivity. Qed.
Lemma table_same {A} (na : A) groups names values n : (1 <= n)%nat -> length groups = n -> length names = n -> length values = n ->
  random_table na groups names values = Ok (combine (combine groups names) values).
Proof.
  intros H G N V. unfold random_table. rewrite G, N, V, !Nat.max_id, recycles_same by exact H. cbn [andb]. f_equal.
  apply (nth_ext _ _ ("", "", na) ("", "", na)).
  - rewrite map_length, seq_length, !combine_length. lia.
  - intros i Hi. rewrite map_length, seq_length in Hi. rewrite combine_nth by (rewrite combine_length; lia). rewrite combine_nth by lia.
    rewrite (nth_indep _ _ ((fun i => (nth (i mod n) groups "", nth (i mod n) names "", nth (i mod n) values na)) 0%nat)) by (now rewrite map_length, seq_length).
    rewrite (map_nth (fun i => (nth (i mod n) groups "", nth (i mod n) names "", nth (i mod n) values na)) (seq 0 n) 0%nat i). rewrite seq_nth by exact Hi. cbn [Nat.add].
    rewrite Nat.mod_small by exact Hi. reflexivity.
Qed.
Lemma first_seen_NoDup l : NoDup l -> first_seen l = l.
Proof.
  intros H. induction H as [|x l N H IH]; [reflexivity|]. cbn [first_seen]. rewrite IH. f_equal.
  assert (K : forall m, ~ In x m -> filter (fun y => negb (x =? y)) m = m); [|now apply K]. clear. induction m as [|y m IH]; intros N; [reflexivity|]. cbn [filter].
  destruct (String.eqb_spec x y) as [->|_]; [exfalso; apply N; now left|]. cbn [negb]. rewrite IH; [reflexivity|]. intros Q. apply N. now right.
Qed.
Lemma scalar_names terms : List.Forall scalar terms -> length (components_of terms) = length terms /\
  parameters terms = map (fun gn => (fst gn, snd gn, snd gn)) (combine (groups_of terms) (components_of terms)).
Proof.
  intros H. induction H as [|[g l] terms S H [IH1 IH2]]; [now split|]. unfold scalar in S. cbn [snd] in S. destruct l as [|n [|]]; try discriminate S.
  unfold components_of, groups_of, parameters in *. cbn [flat_map map snd fst app length combine]. split; [now rewrite IH1|]. rewrite IH2. reflexivity.
Qed.
Lemma group_line_right groups levels : groups <> [] -> length levels = length groups ->
  group_line groups levels = combine (map Some groups) (map Some levels).
Proof.
  intros N L. unfold group_line, colon. destruct groups as [|g groups]; [now elim N|]. destruct (Nat.leb_spec 1 (length (g :: groups))); [|cbn [length] in *; lia].
  replace (length (g :: groups) - 1 + 1)%nat with (length (g :: groups)) by (cbn [length]; lia). clear N H. generalize dependent (g :: groups). clear g groups. intros l L.
  rewrite <- seq_shift, map_map. rewrite (map_ext _ (fun i => (nth_error l i, nth_error levels i))) by (intros i; now rewrite Nat.sub_succ, Nat.sub_0_r).
  revert levels L. induction l as [|x l IH]; intros [|y levels] L; try discriminate L; [reflexivity|]. cbn [length seq map combine nth_error]. f_equal.
  rewrite <- seq_shift, map_map. cbn [nth_error]. apply IH. now injection L.
Qed.
Lemma map_fst_combine {A B} (a : list A) (b : list B) : length a = length b -> map fst (combine a b) = a.
Proof. revert b. induction a as [|x a IH]; intros [|y b] L; try discriminate L; [reflexivity|]. cbn [combine map fst]. f_equal. apply IH. now injection L. Qed.
Lemma map_snd_combine {A B} (a : list A) (b : list B) : length a = length b -> map snd (combine a b) = b.
Proof. revert b. induction a as [|x a IH]; intros [|y b] L; try discriminate L; [reflexivity|]. cbn [combine map snd]. f_equal. apply IH. now injection L. Qed.
Lemma combine_Some {A B} (a : list A) (b : list B) : combine (map Some a) (map Some b) = map (fun ab => (Some (fst ab), Some (snd ab))) (combine a b).
Proof. revert b. induction a as [|x a IH]; intros [|y b]; try reflexivity. cbn [map combine fst snd]. now rewrite IH. Qed.

Lemma labels_combine {A} groups names (values : list A) : length groups = length names -> length names = length values ->
  labels (combine (combine groups names) values) = map (fun gn => (fst gn, snd gn, snd gn)) (combine groups names).
Proof.
  intros G N. unfold labels. rewrite <- (map_map fst (fun gn : string * string => (fst gn, snd gn, snd gn))). rewrite map_fst_combine; [reflexivity|]. rewrite combine_length. lia.
Qed.

Section Printed.
Variables (f : fit) (terms : list term) (nlev : string -> nat).
Hypothesis HS : List.Forall scalar terms.
Hypothesis HN : terms <> [].
Hypothesis HD : NoDup (groups_of terms).
Hypothesis HT : ft_ptheta f = length terms.
Hypothesis HC : ft_names_theta f = components_of terms.
Hypothesis HB : (1 <= ft_pbeta f)%nat.
Hypothesis HE : length (ft_estim f) = (ft_ptheta f + ft_pbeta f)%nat.
Hypothesis HM : length (ft_names_beta f) = ft_pbeta f.
Let levels := map nlev (first_seen (groups_of terms)).

Lemma theta_pos : (1 <= ft_ptheta f)%nat.
Proof. rewrite HT. destruct terms; [now elim HN|cbn [length]; lia]. Qed.
Lemma groups_length : length (groups_of terms) = ft_ptheta f.
Proof. unfold groups_of. now rewrite map_length, HT. Qed.
Lemma names_length : length (ft_names_theta f) = ft_ptheta f.
Proof. rewrite HC, HT. apply scalar_names. exact HS. Qed.
Lemma group_line_levels : group_line (groups_of terms) levels = map (fun t => (Some (fst t), Some (nlev (fst t)))) terms.
Proof.
  unfold levels. rewrite first_seen_NoDup by exact HD. rewrite group_line_right; [|unfold groups_of; destruct terms; [now elim HN|discriminate]|now rewrite map_length].
  rewrite combine_Some. unfold groups_of. clear. induction terms as [|t l IH]; [reflexivity|]. cbn [map combine fst snd]. now rewrite IH.
Qed.
Theorem C79_printed_main : exists pr, print_fit f (groups_of terms) levels = Ok pr /\
  labels (pr_random pr) = parameters terms /\ map snd (pr_random pr) = map Some (firstn (ft_ptheta f) (ft_estim f)) /\
  pr_groups pr = map (fun t => (Some (fst t), Some (nlev (fst t)))) terms /\
  pr_fixed pr = combine (map Some (ft_names_beta f)) (map Some (skipn (ft_ptheta f) (ft_estim f))).
Proof.
  pose proof theta_pos as TP. pose proof groups_length as LG. pose proof names_length as LN.
  unfold print_fit, coef_fixed. rewrite select_fixed by assumption. unfold set_names. rewrite map_length, skipn_length, HM.
  destruct (Nat.ltb_spec (length (ft_estim f) - ft_ptheta f) (ft_pbeta f)); [lia|]. cbn [bind].
  rewrite select_random by lia. rewrite (table_same None _ _ _ (ft_ptheta f)); [|exact TP|exact LG|exact LN|rewrite map_length, firstn_length; lia].
  cbn [bind]. eexists. split; [reflexivity|]. cbn [pr_random pr_groups pr_fixed]. split; [|split; [|split; [exact group_line_levels|]]].
  - rewrite labels_combine by (rewrite ?map_length, ?firstn_length; lia). rewrite HC. symmetry. apply scalar_names. exact HS.
  - apply map_snd_combine. rewrite combine_length, map_length, firstn_length. lia.
  - replace (length (ft_estim f) - ft_ptheta f - ft_pbeta f)%nat with 0%nat by lia. cbn [repeat]. now rewrite app_nil_r.
Qed.

Variables (upper : R -> R) (Sigma : list (list R)).
Hypothesis HV : ft_Sigma f = Some Sigma.
Let se i := sqrt (nth i (nth i Sigma []) 0).
Let z i := Rabs (nth i (ft_estim f) 0 / se i).

Lemma summary_columns : let s := summary upper (ft_estim f) Sigma in let p := length (ft_estim f) in
  map (fun r => fst (fst r)) s = map se (seq 0 p) /\ map (fun r => snd (fst r)) s = map z (seq 0 p) /\ map snd s = map (fun i => 2 * upper (z i)) (seq 0 p).
Proof. cbv zeta. unfold summary. rewrite !map_map. now repeat split. Qed.
Lemma firstn_map_seq {A} (g : nat -> A) n p : (n <= p)%nat -> firstn n (map g (seq 0 p)) = map g (seq 0 n).
Proof. intros H. rewrite firstn_map. f_equal. replace p with (n + (p - n))%nat by lia. rewrite seq_app, firstn_app, seq_length, Nat.sub_diag. cbn [firstn]. rewrite app_nil_r. apply firstn_all2. rewrite seq_length. lia. Qed.
Lemma skipn_map_seq {A} (g : nat -> A) n p : (n <= p)%nat -> skipn n (map g (seq 0 p)) = map g (seq n (p - n)).
Proof. intros H. rewrite skipn_map. f_equal. replace p with (n + (p - n))%nat at 1 by lia. rewrite seq_app, skipn_app, seq_length, Nat.sub_diag. cbn [skipn Nat.add]. rewrite skipn_all2 by (rewrite seq_length; lia). reflexivity. Qed.
Lemma as_map (x : list R) : x = map (fun i => nth i x 0) (seq 0 (length x)).
Proof.
  apply (nth_ext _ _ 0 0); [now rewrite map_length, seq_length|]. intros i Hi. rewrite (nth_indep (map _ _) 0 ((fun i => nth i x 0) 0%nat)) by (now rewrite map_length, seq_length).
  rewrite (map_nth (fun i => nth i x 0) (seq 0 (length x)) 0%nat i). now rewrite seq_nth.
Qed.
Lemma combine_maps {A B} (g : nat -> A) (h : nat -> B) l : combine (map g l) (map h l) = map (fun i => (g i, h i)) l.
Proof. induction l as [|i l IH]; [reflexivity|]. cbn [map combine]. now rewrite IH. Qed.

Theorem C79_summary_main : exists ps, print_summary upper f (groups_of terms) levels = Ok ps /\
  labels (pr_random ps) = parameters terms /\
  map snd (pr_random ps) = map (fun i => (Some (nth i (ft_estim f) 0), Some (se i))) (seq 0 (ft_ptheta f)) /\
  pr_groups ps = map (fun t => (Some (fst t), Some (nlev (fst t)))) terms /\
  pr_fixed ps = combine (map Some (ft_names_beta f))
    (map (fun i => (Some (nth i (ft_estim f) 0), Some (se i), Some (z i), Some (2 * upper (z i)))) (seq (ft_ptheta f) (ft_pbeta f))).
Proof.
  pose proof theta_pos as TP. pose proof groups_length as LG. pose proof names_length as LN.
  unfold print_summary. rewrite HV. cbv zeta. destruct summary_columns as (-> & -> & ->). set (p := length (ft_estim f)).
  assert (Sp : forall g : nat -> R, length (map g (seq 0 p)) = (ft_ptheta f + ft_pbeta f)%nat) by (intros g; now rewrite map_length, seq_length).
  rewrite !select_fixed by (try assumption; apply Sp). rewrite !select_random by (rewrite ?Sp; lia).
  assert (E1 : firstn (ft_ptheta f) (ft_estim f) = map (fun i => nth i (ft_estim f) 0) (seq 0 (ft_ptheta f))).
  { rewrite <- (firstn_map_seq _ (ft_ptheta f) p) by (unfold p; lia). f_equal. apply as_map. }
  assert (E2 : skipn (ft_ptheta f) (ft_estim f) = map (fun i => nth i (ft_estim f) 0) (seq (ft_ptheta f) (p - ft_ptheta f))).
  { rewrite <- skipn_map_seq by (unfold p; lia). f_equal. apply as_map. }
  rewrite E1, E2. rewrite !firstn_map_seq, !skipn_map_seq by (unfold p; lia). rewrite !map_map, !combine_maps.
  replace (p - ft_ptheta f)%nat with (ft_pbeta f) by (unfold p; lia).
  rewrite (table_same (None, None) _ _ _ (ft_ptheta f)); [|exact TP|exact LG|exact LN|now rewrite map_length, seq_length]. cbn [bind]. unfold set_rownames.
  destruct (ft_names_beta f) as [|b0 bs] eqn:EB; [cbn [length] in HM; lia|]. rewrite map_length, seq_length, HM, Nat.eqb_refl. cbn [bind].
  eexists. split; [reflexivity|]. cbn [pr_random pr_groups pr_fixed]. split; [|split; [|split; [exact group_line_levels|reflexivity]]].
  - rewrite labels_combine by (rewrite ?map_length, ?seq_length; lia). rewrite HC. symmetry. apply scalar_names. exact HS.
  - apply map_snd_combine. rewrite combine_length, map_length, seq_length. lia.
Qed.
Theorem C79_infinite_main : ft_Sigma f = None -> exists ps, print_summary upper f (groups_of terms) levels = Ok ps /\
  labels (pr_random ps) = parameters terms /\
  map snd (pr_random ps) = map (fun x => (Some x, None)) (firstn (ft_ptheta f) (ft_estim f)) /\
  pr_groups ps = map (fun t => (Some (fst t), Some (nlev (fst t)))) terms /\
  pr_fixed ps = combine (map Some (ft_names_beta f)) (map (fun x => (Some x, None, None, None)) (skipn (ft_ptheta f) (ft_estim f))).
Proof.
  intros HA. pose proof theta_pos as TP. pose proof groups_length as LG. pose proof names_length as LN.
  unfold print_summary. rewrite HA. cbv zeta. rewrite (select_fixed (ft_estim f)) by assumption. rewrite (select_random (ft_estim f)) by lia. rewrite !map_map.
  rewrite (table_same (None, None) _ _ _ (ft_ptheta f)); [|exact TP|exact LG|exact LN|rewrite map_length, firstn_length; lia]. cbn [bind]. unfold set_rownames.
  destruct (ft_names_beta f) as [|b0 bs] eqn:EB; [cbn [length] in HM; lia|]. rewrite map_length, skipn_length.
  replace (length (b0 :: bs) =? length (ft_estim f) - ft_ptheta f)%nat with true by (symmetry; apply Nat.eqb_eq; lia). cbn [bind].
  eexists. split; [reflexivity|]. cbn [pr_random pr_groups pr_fixed]. split; [|split; [|split; [exact group_line_levels|reflexivity]]].
  - rewrite labels_combine by (rewrite ?map_length, ?firstn_length; lia). rewrite HC. symmetry. apply scalar_names. exact HS.
  - apply map_snd_combine. rewrite combine_length, map_length, firstn_length. lia.
Qed.
End Printed.

(** * Several components *)
Lemma triangle_length c : (2 * length (triangle c) = c * (c + 1))%nat.
Proof.
  unfold triangle. assert (K : forall n s d, (d = s + n)%nat -> (2 * length (flat_map (fun j => map (fun i => (i, j)) (seq j (d - j))) (seq s n)) = n * (n + 1))%nat).
  { induction n as [|n IH]; intros s d D; [reflexivity|]. cbn [seq flat_map]. rewrite app_length, map_length, seq_length. specialize (IH (S s) d ltac:(lia)). nia. }
  apply (K c 0%nat c). reflexivity.
Qed.
Lemma triangle_second c : (2 <= c)%nat -> nth_error (triangle c) c = Some (1%nat, 1%nat).
Proof.
  intros H. unfold triangle. destruct c as [|[|c]]; try lia. cbn [seq flat_map]. rewrite Nat.sub_0_r. rewrite nth_error_app2 by (rewrite map_length, seq_length; lia).
  rewrite map_length, seq_length, Nat.sub_diag. replace (S (S c) - 1)%nat with (S c) by lia. reflexivity.
Qed.
Lemma divides c m : (2 <= c)%nat -> (2 * m = c * (c + 1))%nat -> (m mod c =? 0)%nat = Nat.odd c.
Proof.
  intros C M. destruct (Nat.odd c) eqn:O.
  - apply Nat.odd_spec in O. destruct O as [k O]. apply Nat.eqb_eq. assert (m = (k + 1) * c)%nat by nia. subst m. apply Nat.mod_mul. lia.
  - assert (E : Nat.even c = true) by (rewrite <- Nat.negb_odd, O; reflexivity). apply Nat.even_spec in E. destruct E as [k E].
    assert (m = k + k * c)%nat by nia. subst m. rewrite Nat.mod_add by lia. rewrite Nat.mod_small by lia. apply Nat.eqb_neq. lia.
Qed.
Theorem C79_slopes_main f g names levels : (2 <= length names)%nat -> ft_names_theta f = names -> ft_ptheta f = length (parameters [(g, names)]) ->
  (1 <= ft_pbeta f)%nat -> length (ft_estim f) = (ft_ptheta f + ft_pbeta f)%nat -> length (ft_names_beta f) = ft_pbeta f ->
  let c := length names in
  nth_error (parameters [(g, names)]) c = Some (g, nth 1 names "", nth 1 names "") /\
  (Nat.odd c = false -> print_fit f [g] levels = Throw RuntimeError) /\
  (Nat.odd c = true -> exists pr, print_fit f [g] levels = Ok pr /\ nth_error (pr_random pr) c = Some (g, nth 0 names "", Some (nth c (ft_estim f) 0))) /\
  exists l, coef_random f = Ok l /\ nth_error l c = Some (None, Some (nth c (ft_estim f) 0)).
Proof.
  intros H HC HT HB HE HM. cbv zeta. assert (P : parameters [(g, names)] = parameters_of (g, names)) by (unfold parameters; cbn [flat_map]; apply app_nil_r). rewrite P in *.
  unfold parameters_of in *. cbn [fst snd] in *. rewrite map_length in HT. pose proof (triangle_length (length names)) as T. set (c := length names) in *.
  assert (LT : (c < ft_ptheta f)%nat) by (rewrite HT; nia).
  assert (SR : select (ft_estim f) (colon 1 (ft_ptheta f)) = map Some (firstn (ft_ptheta f) (ft_estim f))) by (apply select_random; lia).
  assert (LV : length (map Some (firstn (ft_ptheta f) (ft_estim f))) = ft_ptheta f) by (rewrite map_length, firstn_length; lia).
  assert (NV : nth c (map Some (firstn (ft_ptheta f) (ft_estim f))) None = Some (nth c (ft_estim f) 0)).
  { rewrite (nth_indep _ None (Some 0)) by lia. rewrite (map_nth Some). f_equal. rewrite <- (firstn_skipn (ft_ptheta f) (ft_estim f)) at 2. rewrite app_nth1; [reflexivity|]. rewrite firstn_length. lia. }
  assert (RT : random_table None [g] names (map Some (firstn (ft_ptheta f) (ft_estim f))) = if Nat.odd c then
      Ok (map (fun i => (nth (i mod 1) [g] "", nth (i mod c) names "", nth (i mod ft_ptheta f) (map Some (firstn (ft_ptheta f) (ft_estim f))) None)) (seq 0 (ft_ptheta f))) else Throw RuntimeError).
  { unfold random_table. rewrite LV. fold c. cbn [length]. replace (Nat.max 1 (Nat.max c (ft_ptheta f))) with (ft_ptheta f) by lia. unfold recycles at 1. rewrite Nat.mod_1_r.
    change ((1 <=? 1)%nat && (0 =? 0)%nat) with true. cbn [andb]. rewrite (recycles_same (ft_ptheta f)) by lia. rewrite andb_true_r. unfold recycles. destruct (Nat.leb_spec 1 c); [|lia]. cbn [andb].
    rewrite (divides c (ft_ptheta f)) by (try lia; rewrite HT; exact T). reflexivity. }
  split; [rewrite (map_nth_error _ _ _ (triangle_second c H)); reflexivity|].
  assert (PF : print_fit f [g] levels = (random <- random_table None [g] names (map Some (firstn (ft_ptheta f) (ft_estim f))) ;;
     Ok (mkPrinted random (group_line [g] levels) (combine (map Some (ft_names_beta f)) (map Some (skipn (ft_ptheta f) (ft_estim f))))))).
  { unfold print_fit, coef_fixed. rewrite select_fixed by assumption. unfold set_names. rewrite map_length, skipn_length, HM.
    destruct (Nat.ltb_spec (length (ft_estim f) - ft_ptheta f) (ft_pbeta f)); [lia|]. cbn [bind]. rewrite HC, SR.
    replace (length (ft_estim f) - ft_ptheta f - ft_pbeta f)%nat with 0%nat by lia. cbn [repeat]. now rewrite app_nil_r. }
  split; [|split].
  - intros O. rewrite PF, RT, O. reflexivity.
  - intros O. rewrite PF, RT, O. cbn [bind]. eexists. split; [reflexivity|]. cbn [pr_random].
    assert (NS : nth_error (seq 0 (ft_ptheta f)) c = Some c) by (rewrite (nth_error_nth' _ 0%nat) by (now rewrite seq_length); rewrite seq_nth by exact LT; reflexivity).
    rewrite (map_nth_error _ _ _ NS). rewrite Nat.mod_1_r, Nat.mod_same, Nat.mod_small by lia. cbn [nth]. now rewrite NV.
  - unfold coef_random, set_names. rewrite SR, HC, LV, map_length. fold c. destruct (Nat.ltb_spec (ft_ptheta f) c); [lia|]. eexists. split; [reflexivity|].
    assert (LN : length (map Some (map (append "RE") names) ++ repeat None (ft_ptheta f - c)) = ft_ptheta f) by (rewrite app_length, !map_length, repeat_length; fold c; lia).
    rewrite (nth_error_nth' _ (None, None)) by (rewrite combine_length, LN, LV; lia). f_equal. rewrite combine_nth by (rewrite LN, LV; reflexivity). rewrite NV. f_equal.
    rewrite app_nth2 by (rewrite !map_length; fold c; lia). rewrite !map_length. fold c. rewrite Nat.sub_diag. destruct (ft_ptheta f - c)%nat; reflexivity.
Qed.

(** * Repeated groups *)
Theorem C79_groups_main g h nlev : g <> h -> let groups := [g; g; h] in
  group_line groups (map nlev (first_seen groups)) = [(Some g, Some (nlev g)); (Some g, Some (nlev h)); (Some h, None)].
Proof.
  intros N. cbv zeta. cbn [first_seen filter]. rewrite (proj2 (String.eqb_neq g h) N), String.eqb_refl. cbn [negb filter]. rewrite (proj2 (String.eqb_neq g h) N). reflexivity.
Qed.

(** * No fixed effects *)
Theorem C79_no_fixed_main f groups levels : (1 <= ft_ptheta f)%nat -> ft_pbeta f = 0%nat -> length (ft_estim f) = ft_ptheta f -> length groups = ft_ptheta f ->
  length (ft_names_theta f) = ft_ptheta f -> ft_names_beta f = [] ->
  exists pr, print_fit f groups levels = Ok pr /\ map snd (pr_fixed pr) = [None; Some (nth (ft_ptheta f - 1) (ft_estim f) 0)].
Proof.
  intros H HB HE HG HN HM. unfold print_fit, coef_fixed. rewrite HB, HM. cbn [Nat.add]. 
  assert (S : select (ft_estim f) (colon (ft_ptheta f + 1) (ft_ptheta f)) = [None; Some (nth (ft_ptheta f - 1) (ft_estim f) 0)]).
  { unfold colon. destruct (Nat.leb_spec (ft_ptheta f + 1) (ft_ptheta f)); [lia|]. replace (ft_ptheta f + 1 - ft_ptheta f + 1)%nat with 2%nat by lia. cbn [seq rev app].
    destruct (ft_ptheta f) as [|n] eqn:E; [lia|]. cbn [select flat_map app]. rewrite Nat.sub_succ, Nat.sub_0_r. rewrite (proj2 (nth_error_None (ft_estim f) (S n))) by lia.
    rewrite (nth_error_nth' _ 0) by lia. reflexivity. }
  rewrite S. unfold set_names. cbn [length Nat.ltb Nat.leb bind Nat.sub map app repeat]. rewrite select_random by lia.
  rewrite (table_same None _ _ _ (ft_ptheta f)); [|exact H|exact HG|exact HN|rewrite map_length, firstn_length; lia]. cbn [bind]. eexists. split; [reflexivity|]. reflexivity.
Qed.
