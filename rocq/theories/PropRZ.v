(** * Mixed real/integer matrices (C37, C53) *)
From Coq Require Import ZArith Lia List Bool Arith Reals Lra.
From Verif Require Import Base Spec SpecReal Mat Hlll Structure MatRZ.
Import ListNotations.

(** the operation [r] returns: same sizes, the first l entries of column j of the stacked matrix are combined with those
    of column k (by [f] on reals, [g] on integers), and no other entry changes *)
Definition acts {X} (ro : rops X) (B : rz X) (j k l : nat) (f : X -> X -> X) (g : Z -> Z -> Z) (r : res (rz X)) : Prop :=
  exists B', r = Ok B' /\ rz_wf B' /\ rd B' = rd B /\ rm B' = rm B /\ rn B' = rn B /\
    forall i q, i < rd B + rm B -> q < rn B ->
      stack ro B' i q = if (q =? j) && (i <? l) then lift2 f g (stack ro B i j) (stack ro B i k) else stack ro B i q.

(** ** C37: the column operations, whatever the arithmetic of the reals, also when the l rows straddle the two parts, and
    when there is no real part *)
Theorem C37_column_operations :
  forall (X : Type) (ro : rops X) (B : rz X) j k l, rz_wf B -> j < rn B -> k < rn B -> l <= rd B + rm B ->
    acts ro B j k l (radd ro) Z.add (rz_addcol ro B j k l) /\
    acts ro B j k l (rsub ro) Z.sub (rz_subcol ro B j k l) /\
    (forall x, acts ro B j k l (fun a b => rsubmul ro a b (rofz ro x)) (fun a b => (a - b * x)%Z) (rz_submulcol ro B j k x l)) /\
    (forall x, acts ro B j k l (fun a b => raddmul ro a b (rofz ro x)) (fun a b => (a + b * x)%Z) (rz_addmulcol_si ro B j k x l)) /\
    (forall x e, acts ro B j k l (fun a b => radd ro a (rmul2 ro (rmul ro b (rofz ro x)) e)) (fun a b => (a + b * (x * 2 ^ e))%Z)
                   (rz_addmulcol_si_2exp ro B j k x e l)).
Proof.
  intros X ro B j k l W Hj Hk Hl. unfold acts.
  split; [|split; [|split; [|split]]]; intros; now apply split_ok.
Qed.

(** they are out of bounds in all other cases *)
Theorem C37_bounds :
  forall (X : Type) (ro : rops X) (B B' : rz X) j k l x e,
    rz_addcol ro B j k l = Ok B' \/ rz_subcol ro B j k l = Ok B' \/ rz_submulcol ro B j k x l = Ok B' \/
    rz_addmulcol_si ro B j k x l = Ok B' \/ rz_addmulcol_si_2exp ro B j k x e l = Ok B' ->
    j < rn B /\ k < rn B /\ l <= rd B + rm B.
Proof. intros X ro B B' j k l x e [H|[H|[H|[H|H]]]]; eapply split_bounds; exact H. Qed.

Theorem C37_colswap :
  forall (X : Type) (ro : rops X) (B : rz X) j k, rz_wf B -> j < rn B -> k < rn B ->
    exists B', rz_colswap B j k = Ok B' /\ rz_wf B' /\ rd B' = rd B /\ rm B' = rm B /\ rn B' = rn B /\
      forall i q, i < rd B + rm B -> q < rn B ->
        stack ro B' i q = stack ro B i (if q =? j then k else if q =? k then j else q).
Proof. intros. now apply colswap_ok. Qed.

(** exact reals: column j := column j + x 2^e column k, on the l first rows of the stacked real matrix *)
Local Open Scope R_scope.
Definition value (c : cell (X := R)) : R := match c with Real x => x | Int z => IZR z end.
Record exact_rops (ro : rops R) : Prop := {
  x_add : forall a b, radd ro a b = a + b; x_sub : forall a b, rsub ro a b = a - b; x_mul : forall a b, rmul ro a b = a * b;
  x_div : forall a b, rdiv ro a b = a / b; x_addmul : forall s a b, raddmul ro s a b = s + a * b;
  x_submul : forall s a b, rsubmul ro s a b = s - a * b; x_mul2 : forall a e, rmul2 ro a e = a * powerRZ 2 e;
  x_ofz : forall z, rofz ro z = IZR z; x_zero : forall x, riszero ro x = true <-> x = 0 }.

Lemma acts_value (ro : rops R) B j k l f g h r : (forall a b, f a b = h a b) -> (forall a b, IZR (g a b) = h (IZR a) (IZR b)) ->
  acts ro B j k l f g r ->
  exists B', r = Ok B' /\ forall i q, (i < rd B + rm B)%nat -> (q < rn B)%nat ->
    value (stack ro B' i q) = if ((q =? j) && (i <? l))%nat then h (value (stack ro B i j)) (value (stack ro B i k)) else value (stack ro B i q).
Proof.
  intros Hf Hg (B' & E & _ & _ & _ & _ & H). exists B'. split; [assumption|]. intros i q Hi Hq. rewrite H by assumption.
  destruct (_ && _)%bool; [|reflexivity]. unfold stack. destruct (i <? rd B)%nat; cbn; auto.
Qed.

Theorem C37_exact :
  forall (ro : rops R), exact_rops ro -> forall (B : rz R) j k l, rz_wf B -> (j < rn B)%nat -> (k < rn B)%nat -> (l <= rd B + rm B)%nat ->
  let s B' i q := value (stack ro B' i q) in
  let spec c r := exists B', r = Ok B' /\ forall i q, (i < rd B + rm B)%nat -> (q < rn B)%nat ->
      s B' i q = if ((q =? j) && (i <? l))%nat then s B i j + c * s B i k else s B i q in
    spec 1 (rz_addcol ro B j k l) /\ spec (-1) (rz_subcol ro B j k l) /\
    (forall x, spec (- IZR x) (rz_submulcol ro B j k x l)) /\
    (forall x, spec (IZR x) (rz_addmulcol_si ro B j k x l)) /\
    (forall x e, (0 <= e)%Z -> spec (IZR x * powerRZ 2 e) (rz_addmulcol_si_2exp ro B j k x e l)).
Proof.
  intros ro EX B j k l W Hj Hk Hl s spec.
  destruct (C37_column_operations R ro B j k l W Hj Hk Hl) as (H1 & H2 & H3 & H4 & H5).
  split; [|split; [|split; [|split]]].
  - apply (acts_value _ _ _ _ _ _ _ (fun a b => a + 1 * b)) in H1; [exact H1| |]; intros; [rewrite (x_add ro EX)|rewrite plus_IZR]; ring.
  - apply (acts_value _ _ _ _ _ _ _ (fun a b => a + -1 * b)) in H2; [exact H2| |]; intros; [rewrite (x_sub ro EX)|rewrite minus_IZR]; ring.
  - intros x. specialize (H3 x). apply (acts_value _ _ _ _ _ _ _ (fun a b => a + - IZR x * b)) in H3; [exact H3| |]; intros.
    + rewrite (x_submul ro EX), (x_ofz ro EX). ring.
    + rewrite minus_IZR, mult_IZR. ring.
  - intros x. specialize (H4 x). apply (acts_value _ _ _ _ _ _ _ (fun a b => a + IZR x * b)) in H4; [exact H4| |]; intros.
    + rewrite (x_addmul ro EX), (x_ofz ro EX). ring.
    + rewrite plus_IZR, mult_IZR. ring.
  - intros x e He. specialize (H5 x e). apply (acts_value _ _ _ _ _ _ _ (fun a b => a + IZR x * powerRZ 2 e * b)) in H5; [exact H5| |]; intros.
    + rewrite (x_add ro EX), (x_mul2 ro EX), (x_mul ro EX), (x_ofz ro EX). ring.
    + rewrite plus_IZR, !mult_IZR. rewrite <- (Z2Nat.id e He) at 1. rewrite <- pow_IZR, pow_powerRZ, (Z2Nat.id e He). ring.
Qed.

Definition Rro : rops R := mkR R 0 Rplus Rminus Rmult Rdiv (fun s a b => s + a * b) (fun s a b => s - a * b)
  (fun a e => a * powerRZ 2 e) IZR (fun x => if Req_EM_T x 0 then true else false) (fun _ => 1%Z).
Lemma Rro_exact : exact_rops Rro.
Proof. split; try reflexivity. intros x. cbn. destruct (Req_EM_T x 0); split; congruence. Qed.

(** two real rows and three integer rows, an operation on four rows *)
Definition B23 : rz R := mkRZ 2 3 2 [[1/2; 3]; [1/4; 5]] [[1;0;0];[7;8;9]]%Z.
Example C37_case : exact_rops Rro /\ rz_wf B23 /\ (0 < rn B23)%nat /\ (1 < rn B23)%nat /\ (4 <= rd B23 + rm B23)%nat /\
  rz_submulcol Rro B23 1 0 7 4 = Ok (mkRZ 2 3 2 [[1/2; 3]; [1/4 - 1/2*7; 5 - 3*7]] [[1;0;0];[0;8;9]]%Z).
Proof.
  split; [apply Rro_exact|]. split; [split; [intros _|]; split; cbn; auto|]. cbn. split; [lia|]. split; [lia|]. split; [lia|reflexivity].
Qed.

(** ** C37: products.  matprod_in(B,U): the integer part is multiplied by U exactly, and in exact arithmetic the stacked
    matrix is multiplied by U *)
Lemma r_dot_sum ro n a b : exact_rops ro -> (0 < n)%nat -> r_dot ro n a b = sumR n (fun k => a k * b k).
Proof.
  intros EX Hn. unfold r_dot. destruct n as [|n]; [lia|]. rewrite Nat.sub_succ, Nat.sub_0_r. clear Hn.
  induction n as [|n IH]; [cbn; rewrite (x_mul ro EX); ring|].
  rewrite seq_S, fold_left_app, IH. cbn [fold_left sumR]. rewrite (x_addmul ro EX). reflexivity.
Qed.

Theorem C37_matprod :
  forall (ro : rops R), exact_rops ro -> forall (B : rz R) U, rz_wf B -> (0 < rn B)%nat ->
    exists B', rz_matprod ro B U = Ok B' /\ rd B' = rd B /\ rm B' = rm B /\ rn B' = rn B /\
      forall i q, (i < rd B + rm B)%nat -> (q < rn B)%nat ->
        value (stack ro B' i q) = sumR (rn B) (fun k => value (stack ro B i k) * IZR (fn U k q)).
Proof.
  intros ro EX B U W Hn. unfold rz_matprod, guard. rewrite (proj2 (Nat.ltb_lt _ _) Hn). cbn [orb].
  eexists. split; [reflexivity|]. split; [reflexivity|split; [reflexivity|split; [reflexivity|]]].
  intros i q Hi Hq. unfold stack. cbn [rd rm rn rF rA]. destruct (Nat.ltb_spec i (rd B)) as [I|I]; cbn [value].
  - replace (0 <? rd B)%nat with true by (symmetry; apply Nat.ltb_lt; lia). rewrite mget_mtab by assumption. rewrite (r_dot_sum ro) by assumption.
    apply sumR_ext. intros k Hk. now rewrite (x_ofz ro EX).
  - unfold fn at 1. rewrite mget_mtab by lia. rewrite sumZ_IZR. apply sumR_ext. intros k Hk. now rewrite mult_IZR.
Qed.

Example C37_matprod_case : rz_wf B23 /\ (0 < rn B23)%nat /\
  rz_matprod Rro B23 [[1;1];[0;1]]%Z = Ok (mkRZ 2 3 2 [[1/2 * 1 + 1/4 * 1; 3 * 1 + 5 * 1]; [1/2 * 0 + 1/4 * 1; 3 * 0 + 5 * 1]] [[8;8;9];[7;8;9]]%Z).
Proof. split; [apply C37_case|]. split; [cbn; lia|reflexivity]. Qed.
Close Scope R_scope.

(** ** C37: element access.  setZT/getZT agree; set(i,j,a) with an integer writes row i of the stacked matrix, while get(i,j)
    reads row i of the integer part: reading back what was just set is wrong as soon as there is a real part *)
Theorem C37_access :
  forall (X : Type) (ro : rops X) (B B' : rz X) i j a, rz_wf B ->
    (rz_setZT B i j a = Ok B' -> rz_getZT B' i j = Ok a) /\
    (rz_set_zt B i j a = Ok B' ->
       rd B <= i < rd B + rm B /\ j < rn B /\
       forall i' j', i' < rd B + rm B -> j' < rn B ->
         stack ro B' i' j' = if (i' =? i) && (j' =? j) then Int a else stack ro B i' j').
Proof. intros X ro B B' i j a W. split; [now apply getset_setZT|intros H; now apply set_zt_stack]. Qed.

Theorem C37_set_get_refuted :
  exists (B B' : rz R) i j a, rz_wf B /\ 0 < rd B /\ i < rm B /\ rz_set_zt B i j a = Ok B' /\ rz_getZT B' i j <> Ok a.
Proof.
  exists B23, (mkRZ 2 3 2 (rF B23) [[5;0;0];[7;8;9]]%Z), 2, 0, 5%Z.
  split; [apply C37_case|]. split; [cbn; lia|]. split; [cbn; lia|]. split; [reflexivity|]. cbn. discriminate.
Qed.

Example C37_access_case : exists B', rz_setZT B23 1 1 5 = Ok B' /\ rz_set_zt B23 3 1 6 = Ok (mkRZ 2 3 2 (rF B23) [[1;0;0];[7;6;9]]%Z).
Proof. eexists. split; reflexivity. Qed.

(** ** C53: matrix_structure.  The entry j (plus one) is 1 + the index of the last row of the stacked matrix in which one of
    the columns 0..j has a non zero entry *)
Theorem C53_mixed_structure :
  forall (X : Type) (ro : rops X) (B : rz X) j, j < rn B ->
    let z i k := match stack ro B i k with Real x => riszero ro x = true | Int a => a = 0%Z end in
    let s := nth j (rz_structure ro B) 0 in
    s <= rd B + rm B /\ (forall k i, k <= j -> s <= i < rd B + rm B -> z i k) /\
    (0 < s -> exists k, k <= j /\ ~ z (s - 1) k).
Proof.
  intros X ro B j Hj z s. destruct (structure_spec ro B j Hj) as (H1 & H2 & H3). split; [exact H1|]. split.
  - intros k i Hk Hi. specialize (H2 k i Hk Hi). unfold z. destruct (stack ro B i k); cbn in H2; [assumption|now apply Z.eqb_eq].
  - intros Hs. destruct (H3 Hs) as (k & Hk & E). exists k. split; [assumption|]. unfold z. fold s in E.
    destruct (stack ro B (s - 1) k); cbn in E; [congruence|]. now apply Z.eqb_neq.
Qed.

Definition Zro : rops Z := mkR Z 0%Z Z.add Z.sub Z.mul Z.quot (fun s a b => (s + a * b)%Z) (fun s a b => (s - a * b)%Z)
  (fun a e => (a * 2 ^ e)%Z) (fun z => z) (fun x => (x =? 0)%Z) (fun x => if (x =? 0)%Z then 1%Z else (Z.log2 (Z.abs x) + 1)%Z).
Example C53_case : rz_structure Zro (mkRZ 2 2 3 [[1;0];[1;0];[3;4]]%Z [[0;0];[5;0];[0;0]]%Z) = [1;3;3].
Proof. reflexivity. Qed.

(** ** C53: mixed_trunc.  The integer part: the identity (t < 0), a copy (t = 0), or every entry divided by one power of ten
    10^k, truncated; the real part is divided by 10^e10(tau) when tau > 0, then by the same 10^k when t > 0 *)
Theorem C53_mixed_trunc :
  forall (X : Type) (ro : rops X) e10 e10' (A B : rz X) t tau, rz_wf A -> mixed_trunc ro e10 e10' A t tau = Ok B ->
    rd B = rd A /\ rm B = rm A /\ rn B = rn A /\
    let up x := if (0 <? tau)%Z then rdiv ro x (rofz ro (10 ^ e10 tau)) else x in
    exists k, (0 <= k)%Z /\
      (forall i j, i < rm A -> j < rn A -> fn (rA B) i j =
         if (t <? 0)%Z then (if (i =? j)%nat then 1 else 0)%Z else if (t =? 0)%Z then fn (rA A) i j else Z.quot (fn (rA A) i j) (10 ^ k)) /\
      (forall i j, i < rd A -> j < rn A -> mget (rzero ro) (rF B) i j =
         if (0 <? t)%Z then rdiv ro (up (mget (rzero ro) (rF A) i j)) (rofz ro (10 ^ k)) else up (mget (rzero ro) (rF A) i j)).
Proof.
  intros X ro e10 e10' A B t tau W H. unfold mixed_trunc in H.
  set (B1 := if (0 <? tau)%Z then _ else _) in H. set (max2 := if (0 <? t)%Z then _ else _) in H.
  assert (E1 : rd B1 = rd A /\ rm B1 = rm A /\ rn B1 = rn A) by (unfold B1; destruct (0 <? tau)%Z; auto). destruct E1 as (D1 & D2 & D3).
  assert (EF : forall i j, i < rd A -> j < rn A -> mget (rzero ro) (rF B1) i j =
            (if (0 <? tau)%Z then rdiv ro (mget (rzero ro) (rF A) i j) (rofz ro (10 ^ e10 tau)) else mget (rzero ro) (rF A) i j)).
  { intros i j Hi Hj. unfold B1. destruct (0 <? tau)%Z; cbn [rF rz_mapF];
      (replace (0 <? rd A) with true by (symmetry; apply Nat.ltb_lt; lia)); now rewrite mget_mtab. }
  destruct (Z.ltb_spec t 0).
  - unfold guard in H. destruct (rm A <=? rn A); [|discriminate]. injection H as <-. cbn [rz_withA rd rm rn rF rA].
    split; [assumption|]. split; [assumption|]. split; [assumption|]. exists 0%Z. split; [lia|]. rewrite D2, D3. split.
    + intros i j Hi Hj. unfold fn. now rewrite mget_mtab.
    + intros i j Hi Hj. replace (0 <? t)%Z with false by (symmetry; apply Z.ltb_ge; lia). now apply EF.
  - destruct (Z.eqb_spec t 0).
    + injection H as <-. cbn [rz_withA rd rm rn rF rA].
      split; [assumption|]. split; [assumption|]. split; [assumption|]. exists 0%Z. split; [lia|]. rewrite D2, D3. split.
      * intros i j Hi Hj. unfold fn. now rewrite mget_mtab.
      * intros i j Hi Hj. replace (0 <? t)%Z with false by (symmetry; apply Z.ltb_ge; lia). now apply EF.
    + injection H as <-. cbn [rz_withA rz_mapF rd rm rn rF rA].
      split; [assumption|]. split; [assumption|]. split; [assumption|]. exists (Z.max 0 (e10' max2 t)). split; [lia|]. rewrite D1, D2, D3. split.
      * intros i j Hi Hj. unfold fn at 1. now rewrite mget_mtab.
      * intros i j Hi Hj. replace (0 <? t)%Z with true by (symmetry; apply Z.ltb_lt; lia).
        replace (0 <? rd A) with true by (symmetry; apply Nat.ltb_lt; lia). rewrite mget_mtab by assumption. now rewrite EF.
Qed.

(** it is defined except for an identity part with more rows than columns *)
Theorem C53_mixed_trunc_defined :
  forall (X : Type) (ro : rops X) e10 e10' (A : rz X) t tau, (0 <= t)%Z \/ rm A <= rn A -> exists B, mixed_trunc ro e10 e10' A t tau = Ok B.
Proof.
  intros X ro e10 e10' A t tau H. unfold mixed_trunc. destruct (Z.ltb_spec t 0).
  - unfold guard. replace (rm A <=? rn A) with true by (symmetry; apply Nat.leb_le; lia). eexists. reflexivity.
  - destruct (t =? 0)%Z; eexists; reflexivity.
Qed.

Example C53_trunc_case :
  mixed_trunc Zro (fun tau => tau * 30103 / 100000)%Z (fun b t => (b - t) * 30103 / 100000)%Z
    (mkRZ 1 2 2 [[123456];[-7]] [[98765;-98765];[3;4]])%Z 10 4 =
  Ok (mkRZ 1 2 2 [[123];[0]] [[987;-987];[0;0]])%Z.
Proof. vm_compute. reflexivity. Qed.

Print Assumptions C37_column_operations.
Print Assumptions C37_bounds.
Print Assumptions C37_colswap.
Print Assumptions C37_exact.
Print Assumptions C37_matprod.
Print Assumptions C37_access.
Print Assumptions C37_set_get_refuted.
Print Assumptions C53_mixed_structure.
Print Assumptions C53_mixed_trunc.
Print Assumptions C53_mixed_trunc_defined.
