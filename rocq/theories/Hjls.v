(** * Hjls: relations_hjls (src/hjls.cc 62-169) and sequences of calls on an Fgas object *)
From Coq Require Import ZArith Lia List Bool Arith.
From Verif Require Import Base Spec Mat FP Hlll IntSteps HlllInt LinDep Structure MachInt ZFgas Fgas.
Import ListNotations.
Local Open Scope nat_scope.

(** calls of the public methods that modify the object (decomp.h 72-82) *)
Inductive gop (F : Type) := Gred (kappa : nat) | Ghh (kappa : nat) | Gdecomp (gamma : F) (target targetsize : Z).
Arguments Gred {F}. Arguments Ghh {F}. Arguments Gdecomp {F}.

Section Model.
Context {F T : Type} (fp : fpops F) (rt : rtops F T).

(** one call; [gap], [epsilon], [ubound]: the parameters set by init / shift_epsilon / shift_testU / set_confidence_gap *)
Definition gcall (d n dec : nat) (transf : bool) (gap : F -> bool) (epsilon : T) (ubound : Z) (fuel : nat)
    (o : gop F) (z : fgas F T) : res (fgas F T) :=
  match o with
  | Gred k => ghsizereduce fp rt d n dec transf fuel k z
  | Ghh k => ghouseholder fp rt d n k z
  | Gdecomp g t s => let* (_, z') := gdecomp fp rt d n dec transf gap epsilon ubound fuel g t s z in Ok z'
  end.
Definition gcalls d n dec transf gap epsilon ubound fuel (l : list (gop F)) (z : fgas F T) : res (fgas F T) :=
  mfold (gcall d n dec transf gap epsilon ubound fuel) l z.

(** relations_hjls(C, A, nbrel, setprec) for A : d x n, hjls.cc 62-169.  [jB]: the entries B(i,d+k), k <> i, that
    lines 77-81 do not set (mat.h 121-136: resize default-constructs, NaN for mpfr_t).  nbrel >= 0. *)
Definition hj_input (d n : nat) (jB : nat -> nat -> T) (A : mat T) : mat T :=
  mtab n (n + d) (fun i j => if j <? d then mget (tzero rt) A j i
                             else if j =? d + i then tofz rt 1 else jB i j).

(** matprod(ZM, A, Cfp), mat.h 1687-1708 *)
Definition hj_prod (n : nat) (A : mat T) (C : mat Z) (i j : nat) : T :=
  fold_left (fun acc k => taddmul rt acc (mget (tzero rt) A i k) (tofz rt (fn C k j))) (seq 1 (n - 1))
            (tmul rt (mget (tzero rt) A i 0) (tofz rt (fn C 0 j))).

Definition relations_hjls (d n nbrel : nat) (gap : F -> bool) (epsilon : T) (ubound : Z) (fuel : nat) (gamma : F)
    (J : junk_t (F := F)) (jB : nat -> nat -> T) (A : mat T) : res (Z * mat Z) :=
  let B := hj_input d n jB A in
  let* (flag, z) := gdecomp fp rt n (n + d) d false gap epsilon ubound fuel gamma (Z.of_nat nbrel) (2 ^ 63 - 1)
                      (new_fgas rt n (n + d) d false J B B) in
  if (flag =? -1)%Z then Ok ((-1)%Z, [])
  else
    (* 102-110 *)
    guard (nbrel <=? n + d)
    (let V := ggetV (n + d) z in
     let C := mtab n nbrel (fun i j => fn V (d + i) (n + d - nbrel + j)) in
     (* 141-163 *)
     let zeroed j := forallb (fun i => negb (tgt rt (tabs rt (hj_prod n A C i j)) epsilon)) (seq 0 d) in
     if length (filter zeroed (seq 0 nbrel)) =? nbrel then Ok (Z.of_nat nbrel, C) else Ok ((-1)%Z, C)).

(** ** Facts *)
Lemma gcalls_steps d n dec transf gap epsilon ubound fuel l : forall z z',
  gcalls d n dec transf gap epsilon ubound fuel l z = Ok z' -> xsteps rt d n dec transf (gx z) (gx z').
Proof.
  induction l as [|o l IH]; intros z z' H; unfold gcalls in *; cbn [mfold] in H.
  - injection H as <-. constructor.
  - binv H. apply IH in H. eapply xsteps_trans; [|exact H]. destruct o; cbn [gcall] in Ha.
    + now apply ghsizereduce_steps in Ha as [].
    + apply ghouseholder_same in Ha as [-> _]. constructor.
    + binv Ha. destruct a0 as [r zz]. injection Ha as <-. now apply gdecomp_steps in Ha0 as [].
Qed.

Lemma filter_full {A} (f : A -> bool) l : length (filter f l) = length l -> forall x, In x l -> f x = true.
Proof.
  induction l as [|a l IH]; intros H x Hx; [destruct Hx|]. cbn [filter] in H.
  destruct (f a) eqn:E.
  - destruct Hx as [<-|Hx]; [exact E|]. apply IH; [|exact Hx]. cbn in H. lia.
  - exfalso. assert (L : length (filter f l) <= length l).
    { clear. induction l as [|b l IH]; cbn; [lia|]. destruct (f b); cbn; lia. }
    cbn in H. lia.
Qed.

End Model.
