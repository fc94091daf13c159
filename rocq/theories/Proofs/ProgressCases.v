(** A case for C88. *)
From Coq Require Import List ZArith Arith Reals Bool Lia Lra.
From Verif Require Import Model.Base Model.Fit Model.Environment Model.Progress Spec.FitSpec Spec.EnvironmentSpec Spec.ProgressSpec Proofs.ProgressMain.
Import ListNotations.
Local Open Scope R_scope.

(** An algorithm that asks at the start, outside of the box, and where there is an error;
    it stops with an error if it does not notice the latter. *)
Definition three_asks (x0 : list R) : asks dev (list R * list (list R)) :=
  Ask x0 (fun _ => Ask [6; 0] (fun _ => Ask [1; 1] (fun d =>
    Done match d with Inf => Ok (x0, [[1; 0]; [0; 1]]) | Fin _ => Throw RuntimeError end))).
Definition partly (x : list R) : outcome R :=
  match x with
  | [a; b] => if Rlt_dec a 1 then Ok (a - b) else Throw RuntimeError
  | _ => Throw RuntimeError
  end.

Lemma partly_defined x : defined (partly x).
Proof. destruct x as [|a [|b [|c x]]]; cbn; try exact I. destruct (Rlt_dec a 1); exact I. Qed.
Lemma three_asks_length : asks_length 2 (three_asks (repeat 0 2)).
Proof. repeat split; reflexivity. Qed.
Lemma start_in_box : in_box 1 [1 / 2; 0].
Proof. intros [|i] H; [cbn [nth]; rewrite Rabs_right; lra|lia]. Qed.
Lemma start_value : partly [1 / 2; 0] = Ok (1 / 2).
Proof. cbn. destruct (Rlt_dec (1 / 2) 1); [f_equal; lra|exfalso; lra]. Qed.

Lemma value_1 : used_loglikelihood partly 1 (1 / 2) [0 + 1 / 2; 0 + 0] = Some (1 / 2).
Proof.
  unfold used_loglikelihood, inside. cbn [firstn forallb]. destruct (Rle_dec (Rabs (0 + 1 / 2)) 5) as [_|N]; [|exfalso; apply N; rewrite Rabs_right; lra].
  cbn. destruct (Rlt_dec (0 + 1 / 2) 1); [f_equal; lra|exfalso; lra].
Qed.
Lemma value_2 : used_loglikelihood partly 1 (1 / 2) [6 + 1 / 2; 0 + 0] = Some (1 / 2 - 50).
Proof. unfold used_loglikelihood, inside. cbn [firstn forallb]. destruct (Rle_dec (Rabs (6 + 1 / 2)) 5) as [N|_]; [exfalso; rewrite Rabs_right in N; lra|reflexivity]. Qed.
Lemma value_3 : used_loglikelihood partly 1 (1 / 2) [1 + 1 / 2; 1 + 0] = None.
Proof.
  unfold used_loglikelihood, inside. cbn [firstn forallb]. destruct (Rle_dec (Rabs (1 + 1 / 2)) 5) as [_|N]; [|exfalso; apply N; rewrite Rabs_right; lra].
  cbn. destruct (Rlt_dec (1 + 1 / 2) 1); [exfalso; lra|reflexivity].
Qed.

Lemma case_points : points three_asks partly 1 [1 / 2; 0] (1 / 2) = [[0 + 1 / 2; 0 + 0]; [6 + 1 / 2; 0 + 0]; [1 + 1 / 2; 1 + 0]].
Proof. reflexivity. Qed.
Lemma case_closing : closing three_asks partly 1 [1 / 2; 0] (1 / 2) = [Finished].
Proof.
  unfold closing, three_asks. cbn [length repeat answers]. unfold shifted at 3. cbn [combine map fst snd]. rewrite value_3. reflexivity.
Qed.
Lemma case_opening : opening (1 / 2) = [Takes (1 / 2); Fitting].
Proof. unfold opening. destruct (Rlt_dec (1 / 10) (1 / 2)); [reflexivity|exfalso; lra]. Qed.

Lemma case_trace solve : snd (optimize_glmm_progress three_asks solve partly 1 1 None 2 (1 / 2)) =
  [Takes (1 / 2); Fitting; EndLine; Values [1 / 2; 0] (Some (1 / 2)); Values [13 / 2; 0] (Some (- (99 / 2))); Values [3 / 2; 1] None; Finished].
Proof.
  rewrite (C88_trace_main three_asks solve partly 1 1 None [1 / 2; 0] (1 / 2) (1 / 2) eq_refl eq_refl (le_n _) partly_defined three_asks_length start_in_box start_value).
  rewrite case_points, case_closing, case_opening. cbn [map app]. rewrite value_1, value_2, value_3.
  repeat (f_equal; try lra).
Qed.
Lemma case_dots solve : snd (optimize_glmm_progress three_asks solve partly 1 1 None 1 (1 / 2)) = [Takes (1 / 2); Fitting; Dot; Finished].
Proof.
  destruct (C88_dots_main three_asks solve partly 1 1 None [1 / 2; 0] (1 / 2) (1 / 2) eq_refl eq_refl (le_n _) partly_defined three_asks_length start_in_box start_value) as (d & -> & _ & H).
  rewrite case_points in H. destruct (H 2%nat) as [H1 H2]; [lra|cbn; lra|]. cbn [length] in H1, H2.
  assert (d = 1)%nat as -> by lia. now rewrite case_closing, case_opening.
Qed.
Lemma C88_case_main : (forall x, defined (partly x)) /\ asks_length 2 (three_asks (repeat 0 2)) /\ in_box 1 [1 / 2; 0] /\ partly [1 / 2; 0] = Ok (1 / 2) /\
  snd (optimize_glmm_progress three_asks (fun h => Ok h) partly 1 1 None 2 (1 / 2)) =
    [Takes (1 / 2); Fitting; EndLine; Values [1 / 2; 0] (Some (1 / 2)); Values [13 / 2; 0] (Some (- (99 / 2))); Values [3 / 2; 1] None; Finished] /\
  snd (optimize_glmm_progress three_asks (fun h => Ok h) partly 1 1 None 1 (1 / 2)) = [Takes (1 / 2); Fitting; Dot; Finished].
Proof.
  split; [exact partly_defined|]. split; [exact three_asks_length|]. split; [exact start_in_box|]. split; [exact start_value|].
  split; [apply case_trace|apply case_dots].
Qed.
