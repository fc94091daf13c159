(** C81: a factorization, or a normal distribution, written to a file. *)
From Coq Require Import String List ZArith Reals.
From Verif Require Import Model.Base Model.Family Model.GLMM Model.SplitFrame Model.SaveFile Spec.Numbers Spec.GLMMSpec Spec.SplitSpec Spec.SaveSpec
  Proofs.SplitCases Proofs.SaveMain Proofs.SaveCases.
Import ListNotations.
Local Open Scope string_scope.
Notation length := List.length.

(** From the file one gets the factors that are passed to C++, with their numbers rounded;
    if the rounding does not change any of the numbers, one gets exactly these factors. *)
Theorem C81_file : forall value text15 text7 round15 round7 limit limit', writes_numbers text15 value round15 limit -> writes_numbers text7 value round7 limit' ->
  (1 < limit)%Z -> (1 < limit')%Z ->
  forall fr y ts, regular fr -> (1 <= length (cs_cols (fr_Zt _ fr)))%nat -> counts_below limit limit' fr -> fr_response _ fr = Numeric _ y ->
  find_factorization_terms Rnum fr = Ok ts ->
  exists file, save_factorization text15 text7 fr = Ok file /\ read_file value file = Some (map (rounded round15) ts) /\
    ((forall t x, In t ts -> In x (numbers_of t) -> round15 x = x) -> read_file value file = Some ts).
Proof. exact C81_file_main. Qed.
Print Assumptions C81_file.

(** But not if the response is a factor: then there are words instead of numbers. *)
Theorem C81_factor_refuted : forall value text15 text7 round15 round7 limit limit', writes_numbers text15 value round15 limit -> writes_numbers text7 value round7 limit' ->
  (1 < limit)%Z -> (1 < limit')%Z -> value "TRUE" = None -> value "FALSE" = None ->
  forall fr codes ts, regular fr -> (1 <= length (cs_cols (fr_Zt _ fr)))%nat -> counts_below limit limit' fr -> fr_response _ fr = Factor _ codes ->
  find_factorization_terms Rnum fr = Ok ts ->
  exists file, save_factorization text15 text7 fr = Ok file /\ read_file value file = None.
Proof. exact C81_factor_main. Qed.
Print Assumptions C81_factor_refuted.

(** From the other file one gets mean and precision. *)
Theorem C81_normal : forall value text round limit mean precision, writes_numbers text value round limit ->
  (Z.of_nat (length (concat precision)) < limit)%Z -> (Z.of_nat (length mean) <= limit)%Z -> length precision = length mean ->
  (forall c e, In c precision -> In e c -> (fst e < length mean)%nat) ->
  read_normal value (length mean) (save_normal text mean precision) = Some (map round mean, map (map (fun e => (fst e, round (snd e)))) precision).
Proof. exact normal_main. Qed.
Print Assumptions C81_normal.

(** Whole numbers in decimal notation; slopes for two groups and three observations, with a
    numerical response, for which the file is given, and with a factor. *)
Example C81_case : writes_numbers decimal whole_value whole_part (10 ^ 15) /\ writes_numbers decimal whole_value whole_part (10 ^ 7) /\
  whole_value "TRUE" = None /\ whole_value "FALSE" = None /\
  (let fr := slopes [(0%nat, 2%R)] in regular fr /\ counts_below (10 ^ 15) (10 ^ 7) fr /\ (exists ts, find_factorization_terms Rnum fr = Ok ts) /\
   save_factorization decimal decimal fr =
     Ok ("G 1 0 2 1 1 1 2 1 1 0 0 1 0 1 1 1 1" ++ newline ++ "G 1 1 1 1 1 1 1 0 0 1 0 1 1" ++ newline ++ "N 1 0 0 1 " ++ newline ++ "N 1 1 0 1 " ++ newline)) /\
  (regular factor_frame /\ counts_below (10 ^ 15) (10 ^ 7) factor_frame /\ (exists ts, find_factorization_terms Rnum factor_frame = Ok ts)) /\
  save_normal decimal [1%R; 2%R] [[(0%nat, 3%R)]; [(0%nat, 1%R); (1%nat, 4%R)]] = "1 2 " ++ newline ++ "3 0 0 3 0 1 1 1 1 4 " ++ newline.
Proof. exact C81_case_main. Qed.
