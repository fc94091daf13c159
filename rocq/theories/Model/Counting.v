(** src/counting.cpp, with unbounded integers; Model/IntCounting.v is the same code
    with 32-bit overflow as undefined behaviour. *)
From Coq Require Import List Arith.
Import ListNotations.

(** choose, src/counting.cpp:5-13: for i = k+1 .. n: c *= i; c /= i - k. *)
Definition choose (n k : nat) : nat :=
  fold_left (fun c i => c * i / (i - k)) (seq (k + 1) (n - k)) 1.

(** findNumGridPoints, src/counting.cpp:15-26. *)
Definition findNumGridPoints (d k : nat) : nat :=
  if 0 <? d then
    fold_left (fun out i => out + choose (d - 1 + i) i * 2 ^ i) (seq 0 (k + 1)) 0
  else 1.
