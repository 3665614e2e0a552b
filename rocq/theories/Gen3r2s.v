(** * Test vectors with a known integer relation: gen3r2s and gen3r2s7t5u (src/matgen.cc 387-546) *)
From Coq Require Import ZArith List Bool Arith.
From Verif Require Import Base.
Import ListNotations.

(** the operations of FP_NR<RT> used there *)
Record lops (F : Type) := mkLops {
  l_of : Z -> F;              (* assignment of an integral double *)
  l_log : F -> F; l_exp : F -> F;
  l_add : F -> F -> F; l_sub : F -> F -> F; l_div : F -> F -> F;
  l_neg : F -> F; l_abs : F -> F; l_neg_p : F -> bool }.  (* l_neg_p x: x < 0 *)
Arguments l_of {F}. Arguments l_log {F}. Arguments l_exp {F}. Arguments l_add {F}. Arguments l_sub {F}. Arguments l_div {F}.
Arguments l_neg {F}. Arguments l_abs {F}. Arguments l_neg_p {F}.

Section Gen.
Context {F : Type} (lo : lops F).

(** b^(1/r) through logarithms, 395-405, 427-437, 465-475 *)
Definition root (b r : Z) : F := l_exp lo (l_div lo (l_log lo (l_of lo b)) (l_of lo r)).

(** the loop 411-416, 443-448: exponentials of multiples of log(alpha); entry 0 is 1.0 (undefined when n = 0) *)
Fixpoint powers (k : nat) (alpha beta : F) : list F :=
  match k with
  | O => []
  | S k' => let b := l_add lo beta alpha in l_exp lo b :: powers k' alpha b
  end.

(** gen3r2s, 387-418 and 420-450 *)
Definition gen3r2s (n : nat) (r s : Z) : res (list F) :=
  let alpha := l_log lo (l_sub lo (root 3 r) (root 2 s)) in
  match n with
  | O => UB
  | S k => Ok (l_of lo 1 :: powers k alpha (l_of lo 0))
  end.

(** one row of gen3r2s7t5u, 477-494 and 510-527: the absolute value is taken, odd entries are negated *)
Definition alternate (l : list F) : list F := imap (fun i x => if Nat.odd i then l_neg lo x else x) l.
Definition gen_row (n : nat) (b r c s : Z) : res (list F) :=
  let a := l_sub lo (root b r) (root c s) in
  let a1 := if l_neg_p lo a then l_abs lo a else a in
  let alpha := l_log lo a1 in
  match n with
  | O => UB
  | S k => Ok (alternate (l_of lo 1 :: powers k alpha (l_of lo 0)))
  end.
Definition gen3r2s7t5u (n : nat) (r s t u : Z) : res (list F * list F) :=
  let* v := gen_row n 3 r 2 s in
  let* w := gen_row n 7 t 5 u in
  Ok (v, w).
End Gen.
