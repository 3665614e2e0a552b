(** * The installed programs hplll and isreduced, and the basis generator of the command line

    Line numbers: src/tools.h (the macros), src/matgen.cc (command_line_basis), src/hplll.cc, src/isreduced.cc.
    Not modelled: the text format of cin and cout (the matrix read is a parameter, the matrix printed is the result),
    print2maple (-output 1, it only prints), the usage text [message] (it is built from uninitialised integers and
    never printed), memory exhaustion. *)
From Coq Require Import ZArith Lia List Bool Arith String Ascii.
From Verif Require Import Base Spec Mat MatOps Slll FP Hlll Hlll2 HlllM.
Import ListNotations.
Local Open Scope Z_scope.

(** ** Reading a word or an integer from an argument: std::istringstream(s) >> v, tools.h 9-17 *)

Definition is_space (c : ascii) : bool :=
  let k := nat_of_ascii c in (k =? 32)%nat || ((9 <=? k) && (k <=? 13))%nat.
Definition digit (c : ascii) : option Z :=
  let k := nat_of_ascii c in if ((48 <=? k) && (k <=? 57))%nat then Some (Z.of_nat k - 48) else None.

Fixpoint skip_spaces (s : string) : string :=
  match s with
  | String c r => if is_space c then skip_spaces r else s
  | EmptyString => EmptyString
  end.
Fixpoint take_word (s : string) : string :=
  match s with
  | String c r => if is_space c then EmptyString else String c (take_word r)
  | EmptyString => EmptyString
  end.
(** >> char*: None when there is nothing but white space (the variable is unchanged) *)
Definition rd_word (s : string) : option string :=
  match skip_spaces s with EmptyString => None | r => Some (take_word r) end.

Fixpoint digits (s : string) (acc : Z) : Z :=
  match s with
  | String c r => match digit c with Some x => digits r (10 * acc + x) | None => acc end
  | EmptyString => acc
  end.
Definition int_max := 2147483647.
Definition int_min := -2147483648.
Definition clamp (z : Z) : Z := Z.max int_min (Z.min int_max z).
(** >> int: decimal digits with a sign; no digit gives 0; out of range gives the nearest bound;
    white space only leaves the variable unchanged *)
Definition rd_int (s : string) : option Z :=
  match skip_spaces s with
  | EmptyString => None
  | String c r =>
      if (nat_of_ascii c =? 45)%nat then Some (clamp (- digits r 0))
      else if (nat_of_ascii c =? 43)%nat then Some (clamp (digits r 0))
      else Some (clamp (digits (String c r) 0))
  end.

(** ** The options, matgen.cc 116-170 *)
Section Prog.
Context {D : Type}.  (* double *)

Record opts := mkO { o_type : string; o_d : Z; o_m : Z; o_delta : D; o_bits : Z; o_alpha : D; o_output : Z;
                     o_q : Z; o_N : Z; o_X : Z; o_h : Z; o_shift : Z }.

(** what the code does not determine: conversion of a double, its two default values, and the four ints that are
    not initialised *)
Record env := mkE { rd_dbl : string -> option D; d_delta : D; d_alpha : D; j_q : Z; j_N : Z; j_X : Z; j_h : Z }.

Definition defaults (e : env) : opts :=
  mkO "r" 8 1 (d_delta e) 10 (d_alpha e) 0 (j_q e) (j_N e) (j_X e) (j_h e) 10.

Definition upd {A} (o : option A) (x : A) : A := match o with Some y => y | None => x end.

(** MATCH_MAIN_ARGID (tools.h 24-33) for each of the twelve options, in order (matgen.cc 157-168): the result is the
    new options when the argument [a] is an option and [v] its value, None when it is not an option.
    A word of 8 characters or more does not fit in [char type[8]]. *)
Definition set_opt (e : env) (a v : string) (o : opts) : option (res opts) :=
  let '(mkO ty d m dl b al ou q N X h sh) := o in
  if String.eqb a "-type" then
    Some (match rd_word v with
          | None => Ok o
          | Some w => guard (String.length w <? 8)%nat (Ok (mkO w d m dl b al ou q N X h sh))
          end)
  else if String.eqb a "-d" then Some (Ok (mkO ty (upd (rd_int v) d) m dl b al ou q N X h sh))
  else if String.eqb a "-m" then Some (Ok (mkO ty d (upd (rd_int v) m) dl b al ou q N X h sh))
  else if String.eqb a "-delta" then Some (Ok (mkO ty d m (upd (rd_dbl e v) dl) b al ou q N X h sh))
  else if String.eqb a "-bits" then Some (Ok (mkO ty d m dl (upd (rd_int v) b) al ou q N X h sh))
  else if String.eqb a "-alpha" then Some (Ok (mkO ty d m dl b (upd (rd_dbl e v) al) ou q N X h sh))
  else if String.eqb a "-output" then Some (Ok (mkO ty d m dl b al (upd (rd_int v) ou) q N X h sh))
  else if String.eqb a "-q" then Some (Ok (mkO ty d m dl b al ou (upd (rd_int v) q) N X h sh))
  else if String.eqb a "-N" then Some (Ok (mkO ty d m dl b al ou q (upd (rd_int v) N) X h sh))
  else if String.eqb a "-X" then Some (Ok (mkO ty d m dl b al ou q N (upd (rd_int v) X) h sh))
  else if String.eqb a "-h" then Some (Ok (mkO ty d m dl b al ou q N X (upd (rd_int v) h) sh))
  else if String.eqb a "-shift" then Some (Ok (mkO ty d m dl b al ou q N X h (upd (rd_int v) sh)))
  else None.

(** PARSE_MAIN_ARGS (tools.h 19-22) over argv[1..argc-1]; for the last argument argv[i+1] is a null pointer, from
    which std::string cannot be built *)
Fixpoint parse (e : env) (args : list string) (o : opts) : res opts :=
  match args with
  | [] => Ok o
  | a :: rest =>
      match set_opt e a (hd "" rest)%string o with
      | None => parse e rest o
      | Some r => match rest with
                  | [] => UB
                  | _ :: rest' => let* o' := r in parse e rest' o'
                  end
      end
  end.

(** ** The generators, matgen.cc 173-373 *)

(** random draws and functions of fplll: [draw p i j b] is the number drawn with randb(b) at entry (i,j) of loop
    number [p] (each is drawn once); [x_*] are filled by fplll's gen_trg, gen_ntrulike, gen_ntrulike_withq,
    gen_ntrulike2, gen_ntrulike2_withq; [al_diag k] = set_f(100 alpha^k), [al_off r t] = set_f((r - 2^19)/2^20 * t) *)
Record gens := mkG { draw : nat -> nat -> nat -> Z -> Z;
                     x_trg : D -> nat -> nat -> nat -> Z;
                     x_ntru : nat -> Z -> nat -> nat -> nat -> Z;
                     al_diag : D -> nat -> Z; al_off : Z -> Z -> Z }.

(** randb(b): b < 0 becomes a huge number of bits *)
Definition randb (g : gens) (p i j : nat) (b : Z) : res Z := guard (0 <=? b) (Ok (draw g p i j b)).

Definition nat_of (z : Z) : res nat := guard (0 <=? z) (Ok (Z.to_nat z)).
Definition in_int (z : Z) : bool := (int_min <=? z) && (z <=? int_max).

(** gen_intrel(bits) of fplll on a d x (d+1) matrix: a random number in column 0, the identity beside it *)
Definition gen_intrel (g : gens) (bits : Z) (AT : dmat) : res dmat :=
  for_ (dr AT) (fun i M =>
    let* z := randb g 0 i 0 bits in
    let* M1 := gset M i 0 z in
    for_ (dc AT - 1) (fun j M => gset M i (S j) (if (j =? i)%nat then 1 else 0)) M1) AT.

(** rows a <= i < b, columns j < d filled with randb(bits) *)
Definition rand_rows (g : gens) (p a b d : nat) (bits : Z) (A : dmat) : res dmat :=
  mfold (fun i => for_ d (fun j M => let* z := randb g p i j bits in gset M i j z)) (seq a (b - a)) A.

(** knapsack, 173-180 *)
Definition gen_r (g : gens) (d : nat) (bits : Z) : res dmat :=
  let* AT := gen_intrel g bits (resize0 d (d + 1)) in
  transpose_to (resize0 (d + 1) d) AT.

(** block knapsack, 184-200 *)
Definition gen_rb (g : gens) (d m : nat) (bits : Z) : res dmat :=
  let* A := rand_rows g 0 0 m d bits (resize0 d d) in
  mfold (fun i M => gset M i i 1) (seq m (d - m)) A.

(** rectangular uniform, 204-215 *)
Definition gen_u (g : gens) (d m : nat) (bits : Z) : res dmat := rand_rows g 0 0 m d bits (resize0 m d).

(** upper part shifted, 219-233 *)
Definition gen_dec (g : gens) (d m : nat) (bits shift : Z) : res dmat :=
  let* A := rand_rows g 0 1 d d bits (resize0 d d) in
  rand_rows g 1 0 m d (bits + shift) A.

(** Coppersmith, 248-297 *)
Definition copp_N (h : nat) (N : Z) (AT : dmat) : res (Z * dmat) :=
  mfold (fun i (st : Z * dmat) => let '(tz, M) := st in
    let* M1 := for_ 3 (fun k M => gset M (i * 3 + k) (i * 3 + k) tz) M in
    Ok (tz * N, M1)) (rev (seq 0 h)) (1, AT).
Definition copp_X (n : nat) (X : Z) (AT : dmat) : res (Z * dmat) :=
  for_ n (fun i (st : Z * dmat) => let '(tz, M) := st in
    let* a := gget M i i in
    let* M1 := gset M i i (a * tz) in
    Ok (tz * X, M1)) (1, AT).
Definition copp_low (g : gens) (n : nat) (AT : dmat) : res dmat :=
  for_ n (fun i => mfold (fun j M =>
    let* a := gget M i i in
    let* z := randb g 2 i j (size_in_bits a + 20) in
    gset M j i z) (seq (i + 1) (n - (i + 1)))) AT.
Definition gen_c (g : gens) (h : nat) (sN sX : Z) : res dmat :=
  let n := (3 * h)%nat in
  let* N := randb g 0 0 0 sN in
  let* X := randb g 1 0 0 sX in
  let* (_, A1) := copp_N h N (resize0 n n) in
  let* (_, A2) := copp_X n X A1 in
  let* A3 := copp_low g n A2 in
  transpose_to (resize0 n n) A3.

(** a matrix filled by fplll, then transposed: 237-244 and 301-342 *)
Definition gen_ext (f : nat -> nat -> Z) (d : nat) : res dmat :=
  transpose_to (resize0 d d) (mkD d d (mtab d d f)).

(** genalpha, 41-107: B is d x d *)
Definition gen_al (g : gens) (d : nat) (alpha : D) : res dmat :=
  let* B1 := for_ d (fun k M => gset M (d - 1 - k) (d - 1 - k) (al_diag g alpha (S k))) (resize0 d d) in
  let* B2 := for_ d (fun i => mfold (fun j M =>
      let* t := gget M i i in
      let* r := randb g 0 i j 20 in
      gset M i j (al_off g r t)) (seq (i + 1) (d - (i + 1)))) B1 in
  for_ d (fun i => for_ i (fun j M => gset M i j 0)) B2.

(** command_line_basis, 116-381: the matrix, n and d.  [input]: what AT.read(cin) returns *)
Definition generate (g : gens) (o : opts) (input : dmat) : res (dmat * nat * nat) :=
  let ty := o_type o in
  if String.eqb ty "r" then
    let* d := nat_of (o_d o) in
    let* A := guard (in_int (o_d o + 1)) (gen_r g d (o_bits o)) in Ok (A, (d + 1)%nat, d)
  else if String.eqb ty "rb" then
    let* d := nat_of (o_d o) in
    let* m := nat_of (o_m o) in
    let* A := gen_rb g d m (o_bits o) in Ok (A, d, d)
  else if String.eqb ty "u" then
    let* n := nat_of (o_m o) in
    let* d := nat_of (o_d o) in
    let* A := gen_u g d n (o_bits o) in Ok (A, n, d)
  else if String.eqb ty "dec" then
    let* d := nat_of (o_d o) in
    let* A := gen_dec g d (Z.to_nat (o_m o)) (o_bits o) (o_shift o) in Ok (A, d, d)
  else if String.eqb ty "t" then
    let* d := nat_of (o_d o) in
    let* A := gen_ext (x_trg g (o_alpha o) d) d in Ok (A, d, d)
  else if String.eqb ty "c" then
    let* h := nat_of (o_h o) in
    let* A := guard (in_int (3 * o_h o)) (gen_c g h (o_N o) (o_X o)) in Ok (A, (3 * h)%nat, (3 * h)%nat)
  else if String.eqb ty "n" || String.eqb ty "nq" || String.eqb ty "N" || String.eqb ty "Nq" then
    let* d := guard (in_int (2 * o_d o)) (nat_of (2 * o_d o)) in
    let k := if String.eqb ty "n" then 0%nat else if String.eqb ty "nq" then 1%nat else if String.eqb ty "N" then 2%nat else 3%nat in
    let* A := gen_ext (x_ntru g k (o_bits o) d) d in Ok (A, d, d)
  else if String.eqb ty "al" then
    let* d := nat_of (o_d o) in
    let* A := gen_al g d (o_alpha o) in Ok (A, d, d)
  else if String.eqb ty "cin" then
    let* A := transpose_to (resize0 (dc input) (dr input)) input in Ok (A, dc input, dr input)
  else UB.  (* "no basis created": n stays uninitialised and is then used by main *)

Definition command_line_basis (e : env) (g : gens) (args : list string) (input : dmat) : res (dmat * nat * nat * D) :=
  let* o := parse e args (defaults e) in
  let* (A, n, d) := generate g o input in
  Ok (A, n, d, o_delta o).

(** ** main of hplll.cc, 34-62: the printed matrix and the exit status.  [f0]: the floating-point members of the object
    after construction, [dl]: the conversion of delta *)
Definition hplll_main {F M} (so : sops F) (mo : nat -> nat -> mops F M) (f0 : nat -> nat -> gst F M) (dl : D -> F)
    (junk : F) (fuel : nat) (vd : Z) (e : env) (g : gens) (args : list string) (input : dmat) : res (dmat * Z) :=
  let* (A, n, d, delta) := command_line_basis e g args input in
  let L := g_new (f0 (dr A) (dc A)) (dr A) (dc A) (de A) false 0 true vd in
  let* (_, L') := g_hlll so (mo (dr A) (dc A)) fuel (dl delta) true junk L in
  let* AT := transpose_to (resize0 d n) (mkD (dr A) (dc A) (g_getbase L')) in
  Ok (AT, 0).

(** ** main of isreduced.cc, 34-58: the verdict returned by isreduced(0.75) (the program discards it and prints
    the report) and the exit status *)
Definition isreduced_main {F} (fp : fpops F) (d075 : F) (J J1 J2 : junk_t (F := F)) (junk : F) (fuel : nat) (vd : Z)
    (input : dmat) : res (Z * Z) :=
  let* A := transpose_to (resize0 (dc input) (dr input)) input in
  let L := new_lattice fp J (dr A) (dc A) (de A) false 0 false vd in
  let* (_, verdict, _) := isreduced fp fuel d075 junk J1 J2 L in
  Ok (verdict, 0).

End Prog.
Arguments opts : clear implicits.
Arguments env : clear implicits.
Arguments gens : clear implicits.
