(** R/optimization.R with its output, which Model/Fit.v leaves out. *)
From Coq Require Import List ZArith Reals Bool.
From Verif Require Import Model.Base Model.Family Model.Vectors Model.Frames Model.Fit Model.Environment Spec.Numbers.
Import ListNotations.
Local Open Scope R_scope.

(** What is written: a dot, line 36; parameters and loglikelihood, line 41, with None for
    -Inf, before formatting with sprintf; the time for an evaluation, line 66; "Fitting the
    model.", line 70; the end of that line, line 72; " done.", line 80. *)
Inductive printed := Dot | Values (param : list R) (loglikelihood : option R) | Takes (t0 : R) | Fitting | EndLine | Finished.

(** The variables count, print_gap (None for Inf) and started, lines 52-54, and the output so
    far. *)
Record progress := mkProgress {
  pr_count : nat;
  pr_gap : option nat;
  pr_started : bool;
  pr_output : list printed
}.
Definition write_out (p : printed) (s : progress) : progress := mkProgress (pr_count s) (pr_gap s) (pr_started s) (pr_output s ++ [p]).

(** Lines 33-42, after an evaluation. *)
Definition report (verbose : Z) (param : list R) (result : dev) (s : progress) : progress :=
  let s :=
    if Z.eqb verbose 1 then
      let s := mkProgress (S (pr_count s)) (pr_gap s) (pr_started s) (pr_output s) in
      if match pr_gap s with Some gap => Nat.ltb gap (pr_count s) | None => false end then
        let s := write_out Dot s in mkProgress 0 (pr_gap s) (pr_started s) (pr_output s)
      else s
    else s in
  if Z.eqb verbose 2 && pr_started s then write_out (Values param (match result with Fin d => Some (- d / 2) | Inf => None end)) s else s.

(** devfun_ext and devfun_std, lines 20-48; an error, which is not caught here, skips
    lines 33-43. *)
Definition devfun_std_progress (verbose : Z) (lfun : list R -> outcome R) (p_theta : nat) (mu param_std : list R) (stop_on_error : bool) (big : dev)
    (s : progress) : outcome dev * progress :=
  let o := devfun_std lfun p_theta mu param_std stop_on_error big in
  (o, match o with Ok result => report verbose (recycled_sum param_std mu) result s | _ => s end).

(** optim, which asks for values one after the other. *)
Fixpoint ask_progress {C} (t : asks dev C) (f : list R -> progress -> outcome dev * progress) (s : progress) : outcome C * progress :=
  match t with
  | Done c => (c, s)
  | Ask x k =>
      let (o, s') := f x s in
      match o with Ok d => ask_progress (k d) f s' | Throw e => (Throw e, s') | UB => (UB, s') | NoFuel => (NoFuel, s') end
  end.

(** print_gap, line 63: floor(time_interval / t0), Inf if t0 is 0. *)
Definition find_gap (t0 : R) : option nat := if Req_EM_T t0 0 then None else Some (Z.to_nat (Int_part (1 / t0))).

(** optimize_glmm, lines 11-92, and what it writes; [t0] is the time for the second
    evaluation at the start, line 62.  Warnings are left out. *)
Definition optimize_glmm_progress (optim : list R -> asks dev (list R * list (list R))) (solve : list (list R) -> outcome (list (list R)))
    (lfun : list R -> outcome R) (p_beta p_theta : nat) (prev : option (list R)) (verbose : Z) (t0 : R)
  : outcome (list R * list (list R)) * list printed :=
  let p := (p_theta + p_beta)%nat in
  let mu := starting_values p_theta p_beta prev in
  let par0 := repeat 0 p in
  let s := mkProgress 0 (Some 100%nat) false [] in
  let (o1, s) := devfun_std_progress verbose lfun p_theta mu par0 true Inf s in
  match o1 with
  | Ok d0 =>
      let (o2, s) := devfun_std_progress verbose lfun p_theta mu par0 false Inf s in
      match o2 with
      | Ok _ =>
          let s := mkProgress (pr_count s) (find_gap t0) (pr_started s) (pr_output s) in
          let s := if Z.ltb 0 verbose && Rltb (1 / 10) t0 then write_out (Takes t0) s else s in
          let s := mkProgress (pr_count s) (pr_gap s) true (pr_output s) in
          let s := if Z.ltb 0 verbose then write_out Fitting s else s in
          let s := if Z.eqb verbose 2 then write_out EndLine s else s in
          let (o3, s) := ask_progress (optim par0) (fun x => devfun_std_progress verbose lfun p_theta mu x false (dev_plus d0 100)) s in
          match o3 with
          | Ok out_std =>
              let s := if Z.ltb 0 verbose then write_out Finished s else s in
              (inv <- solve (snd out_std) ;; Ok (recycled_sum (fst out_std) mu, mscale 2 inv), pr_output s)
          | Throw e => (Throw e, pr_output s)
          | UB => (UB, pr_output s)
          | NoFuel => (NoFuel, pr_output s)
          end
      | Throw e => (Throw e, pr_output s)
      | UB => (UB, pr_output s)
      | NoFuel => (NoFuel, pr_output s)
      end
  | Throw e => (Throw e, pr_output s)
  | UB => (UB, pr_output s)
  | NoFuel => (NoFuel, pr_output s)
  end.
