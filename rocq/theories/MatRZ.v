(** * Mixed matrices: [MatrixRZ<matrix, FP_NR<mpfr_t>, Z_NR<mpz_t>>], src/matmixed.h

    d rows of reals (F) on top of m rows of integers (A), n columns.  When d = 0 the matrix F is never resized: no
    access to it is made ([guard] otherwise). *)
From Coq Require Import ZArith Lia List Bool Arith.
From Verif Require Import Base Spec Mat Hlll Structure.
Import ListNotations.

(** the arithmetic of the real part (mpfr) *)
Record rops (X : Type) := mkR {
  rzero : X; radd : X -> X -> X; rsub : X -> X -> X; rmul : X -> X -> X; rdiv : X -> X -> X;
  raddmul : X -> X -> X -> X;  (* addmul(a,b): this + a*b *)
  rsubmul : X -> X -> X -> X;
  rmul2 : X -> Z -> X;         (* mul_2si *)
  rofz : Z -> X;               (* set_z *)
  riszero : X -> bool;         (* cmp(0.0) == 0 *)
  rbits : X -> Z }.            (* mpz_sizeinbase(mpfr_get_z(x), 2) *)
Arguments rzero {X}. Arguments radd {X}. Arguments rsub {X}. Arguments rmul {X}. Arguments rdiv {X}. Arguments raddmul {X}.
Arguments rsubmul {X}. Arguments rmul2 {X}. Arguments rofz {X}. Arguments riszero {X}. Arguments rbits {X}.

Record rz (X : Type) := mkRZ { rd : nat; rm : nat; rn : nat; rF : mat X; rA : mat Z }.
Arguments mkRZ {X}. Arguments rd {X}. Arguments rm {X}. Arguments rn {X}. Arguments rF {X}. Arguments rA {X}.

Section RZ.
Context {X : Type} (ro : rops X).

(** the sizes of the two parts are those of resize, 63-73 *)
Definition rz_wf (B : rz X) : Prop := (0 < rd B -> wfm (rd B) (rn B) (rF B)) /\ wfm (rm B) (rn B) (rA B).

(** F.addcol(j,k,l) and the others: the l first entries of column j; mat.h 320-455 *)
Definition F_colop (f : X -> X -> X) (B : rz X) (j k l : nat) : res (rz X) :=
  guard ((0 <? rd B) && (j <? rn B) && (k <? rn B) && (l <=? rd B))
    (Ok (mkRZ (rd B) (rm B) (rn B) (colop (rzero ro) f 0 l (rF B) j k) (rA B))).
Definition A_colop (f : Z -> Z -> Z) (B : rz X) (j k l : nat) : res (rz X) :=
  guard ((j <? rn B) && (k <? rn B) && (l <=? rm B))
    (Ok (mkRZ (rd B) (rm B) (rn B) (rF B) (colop 0%Z f 0 l (rA B) j k))).

(** the case analysis common to addcol, subcol, submulcol, addmulcol_si, addmulcol_si_2exp, 139-270 *)
Definition rz_split (f : X -> X -> X) (g : Z -> Z -> Z) (B : rz X) (j k l : nat) : res (rz X) :=
  if 0 <? rd B then
    if l <=? rd B then F_colop f B j k l
    else let* B1 := F_colop f B j k (rd B) in A_colop g B1 j k (l - rd B)
  else A_colop g B j k l.

Definition rz_addcol := rz_split (radd ro) Z.add.                                              (* 139-153 *)
Definition rz_subcol := rz_split (rsub ro) Z.sub.                                              (* 156-169 *)
Definition rz_submulcol (B : rz X) (j k : nat) (x : Z) :=                                      (* 171-187 *)
  rz_split (fun a b => rsubmul ro a b (rofz ro x)) (fun a b => (a - b * x)%Z) B j k.
Definition rz_addmulcol_si (B : rz X) (j k : nat) (a : Z) :=                                   (* 190-208 *)
  rz_split (fun u v => raddmul ro u v (rofz ro a)) (fun u v => (u + v * a)%Z) B j k.
Definition rz_addmulcol_si_2exp (B : rz X) (j k : nat) (a expo : Z) :=                         (* 212-250 *)
  rz_split (fun u v => radd ro u (rmul2 ro (rmul ro v (rofz ro a)) expo)) (fun u v => (u + v * (a * 2 ^ expo))%Z) B j k.

(** colswap, 257-262 *)
Definition rz_colswap (B : rz X) (j k : nat) : res (rz X) :=
  guard ((j <? rn B) && (k <? rn B))
    (Ok (mkRZ (rd B) (rm B) (rn B) (if 0 <? rd B then colswap (rF B) j k else rF B) (colswap (rA B) j k))).

(** set(N), 265-275: the sizes are those of this; N must have at least these *)
Definition rz_set (B N : rz X) : res (rz X) :=
  guard ((rd B <=? rd N) && (rm B <=? rm N) && (rn B <=? rn N))
    (Ok (mkRZ (rd B) (rm B) (rn B)
          (if 0 <? rd B then mtab (rd B) (rn B) (mget (rzero ro) (rF N)) else rF B) (mtab (rm B) (rn B) (fn (rA N))))).

(** set(i,j,ZT), 121-123; setZT, 125-127; get / getZT, 101-104; setRT, 117-119; getRT, 99 *)
Definition rz_set_zt (B : rz X) (i j : nat) (a : Z) : res (rz X) :=
  guard ((rd B <=? i) && (i - rd B <? rm B) && (j <? rn B)) (Ok (mkRZ (rd B) (rm B) (rn B) (rF B) (mset (rA B) (i - rd B) j a))).
Definition rz_setZT (B : rz X) (i j : nat) (a : Z) : res (rz X) :=
  guard ((i <? rm B) && (j <? rn B)) (Ok (mkRZ (rd B) (rm B) (rn B) (rF B) (mset (rA B) i j a))).
Definition rz_getZT (B : rz X) (i j : nat) : res Z := guard ((i <? rm B) && (j <? rn B)) (Ok (fn (rA B) i j)).
Definition rz_setRT (B : rz X) (i j : nat) (a : X) : res (rz X) :=
  guard ((i <? rd B) && (j <? rn B)) (Ok (mkRZ (rd B) (rm B) (rn B) (mset (rF B) i j a) (rA B))).
Definition rz_getRT (B : rz X) (i j : nat) : res X := guard ((i <? rd B) && (j <? rn B)) (Ok (mget (rzero ro) (rF B) i j)).

(** shift(lalpha), 279-289: the real part only *)
Definition rz_shift (B : rz X) (e : Z) : rz X :=
  mkRZ (rd B) (rm B) (rn B) (if 0 <? rd B then mtab (rd B) (rn B) (fun i j => rmul2 ro (mget (rzero ro) (rF B) i j) e) else rF B) (rA B).

(** matprod(C,B,U), mat.h 1687-1709: one entry, the products added from k = 0 *)
Definition r_dot (n : nat) (a b : nat -> X) : X :=
  fold_left (fun s k => raddmul ro s (a k) (b k)) (seq 1 (n - 1)) (rmul ro (a 0) (b 0)).
(** matprod_in(B,U), 369-411; U is n x n; n = 0 reads column 0 when there are rows *)
Definition rz_matprod (B : rz X) (U : mat Z) : res (rz X) :=
  guard ((0 <? rn B) || ((rd B =? 0) && (rm B =? 0)))
    (Ok (mkRZ (rd B) (rm B) (rn B)
      (if 0 <? rd B then mtab (rd B) (rn B) (fun i j => r_dot (rn B) (fun k => mget (rzero ro) (rF B) i k) (fun k => rofz ro (fn U k j))) else rF B)
      (mtab (rm B) (rn B) (fun i j => sumZ (rn B) (fun k => fn (rA B) i k * fn U k j)%Z)))).

(** matrix_structure(structure,B,d,m,n), 587-610, with d, m, n the dimensions of B; shifted by one as in Hlll.v *)
Fixpoint last_nzr (v : nat -> X) (n : nat) : nat :=
  match n with O => 0 | S k => if riszero ro (v k) then last_nzr v k else S k end.
Definition rz_structure (B : rz X) : list nat :=
  run_max 0 (map (fun j => match last_nz (fun i => fn (rA B) i j) (rm B) with
                           | O => last_nzr (fun i => mget (rzero ro) (rF B) i j) (rd B)
                           | S k => S k + rd B end) (seq 0 (rn B))).

(** mixed_trunc(B,A,t,tau), 414-540; [e10], [e10'] as in Trunc10.v *)
Section Trunc.
Variable e10 : Z -> Z.
Variable e10' : Z -> Z -> Z.
Definition rz_maxbitsRT (B : rz X) : Z :=                                                      (* maxbitsizeRT, 340-353 *)
  fold_left (fun l i => fold_left (fun l j => Z.max l (rbits ro (mget (rzero ro) (rF B) i j))) (seq 0 (rn B)) l) (seq 0 (rd B)) 0%Z.
Definition rz_maxbitsZT (B : rz X) : Z :=                                                      (* maxbitsizeZT, 355-365 *)
  fold_left (fun l i => fold_left (fun l j => Z.max l (if (fn (rA B) i j =? 0)%Z then 1 else Z.log2 (Z.abs (fn (rA B) i j)) + 1)%Z) (seq 0 (rn B)) l) (seq 0 (rm B)) 0%Z.
Definition rz_mapF (f : X -> X) (B : rz X) : rz X :=
  mkRZ (rd B) (rm B) (rn B) (if 0 <? rd B then mtab (rd B) (rn B) (fun i j => f (mget (rzero ro) (rF B) i j)) else rF B) (rA B).
Definition rz_withA (B : rz X) (A : nat -> nat -> Z) : rz X := mkRZ (rd B) (rm B) (rn B) (rF B) (mtab (rm B) (rn B) A).
Definition mixed_trunc (A : rz X) (t tau : Z) : res (rz X) :=
  let B := if (0 <? tau)%Z then rz_mapF (fun x => rdiv ro x (rofz ro (10 ^ e10 tau))) A else rz_mapF (fun x => x) A in
  let max2 := if (0 <? t)%Z then Z.max (rz_maxbitsRT B) (rz_maxbitsZT A) else rz_maxbitsRT B in
  if (t <? 0)%Z then guard (rm A <=? rn A) (Ok (rz_withA B (fun i j => if i =? j then 1%Z else 0%Z)))
  else if (t =? 0)%Z then Ok (rz_withA B (fn (rA A)))
  else
    let k := Z.max 0 (e10' max2 t) in
    Ok (rz_withA (rz_mapF (fun x => rdiv ro x (rofz ro (10 ^ k))) B) (fun i j => Z.quot (fn (rA A) i j) (10 ^ k))).
End Trunc.

(** ** Facts: the stacked matrix *)
Inductive cell := Real (x : X) | Int (z : Z).
Definition stack (B : rz X) (i j : nat) : cell :=
  if i <? rd B then Real (mget (rzero ro) (rF B) i j) else Int (fn (rA B) (i - rd B) j).
Definition lift2 (f : X -> X -> X) (g : Z -> Z -> Z) (a b : cell) : cell :=
  match a, b with Real x, Real y => Real (f x y) | Int x, Int y => Int (g x y) | _, _ => a end.

Lemma split_ok f g B j k l : rz_wf B -> j < rn B -> k < rn B -> l <= rd B + rm B ->
  exists B', rz_split f g B j k l = Ok B' /\ rz_wf B' /\ rd B' = rd B /\ rm B' = rm B /\ rn B' = rn B /\
    forall i q, i < rd B + rm B -> q < rn B ->
      stack B' i q = if (q =? j) && (i <? l) then lift2 f g (stack B i j) (stack B i k) else stack B i q.
Proof.
  intros [WF WA] Hj Hk Hl. unfold rz_split, F_colop, A_colop.
  assert (Lj := proj2 (Nat.ltb_lt _ _) Hj). assert (Lk := proj2 (Nat.ltb_lt _ _) Hk).
  destruct (Nat.ltb_spec 0 (rd B)) as [D|D].
  - specialize (WF D). destruct (Nat.leb_spec l (rd B)) as [C|C].
    + rewrite Lj, Lk. unfold guard. cbn [andb]. eexists. split; [reflexivity|].
      split; [split; [intros _; cbn; now apply wfm_colop|exact WA]|]. split; [reflexivity|split; [reflexivity|split; [reflexivity|]]].
      intros i q Hi Hq. unfold stack. cbn [rd rm rn rF rA]. destruct (Nat.ltb_spec i (rd B)) as [I|I].
      * rewrite (mget_colop _ _ (rd B) (rn B)) by assumption. cbn [Nat.leb andb Nat.add].
        destruct (q =? j); [|reflexivity]. destruct (i <? l); reflexivity.
      * replace (i <? l) with false by (symmetry; apply Nat.ltb_ge; lia). now rewrite andb_false_r.
    + unfold guard. rewrite Lj, Lk, Nat.leb_refl. cbn [andb bind rd rm rn rF rA].
      rewrite Lj, Lk. replace (l - rd B <=? rm B) with true by (symmetry; apply Nat.leb_le; lia). cbn [andb].
      eexists. split; [reflexivity|].
      split; [split; [intros _; cbn; now apply wfm_colop|cbn; now apply wfm_colop]|]. split; [reflexivity|split; [reflexivity|split; [reflexivity|]]].
      intros i q Hi Hq. unfold stack. cbn [rd rm rn rF rA]. destruct (Nat.ltb_spec i (rd B)) as [I|I].
      * rewrite (mget_colop _ _ (rd B) (rn B)) by assumption. cbn [Nat.leb andb Nat.add].
        destruct (q =? j); [|reflexivity]. rewrite (proj2 (Nat.ltb_lt i (rd B)) I). replace (i <? l) with true by (symmetry; apply Nat.ltb_lt; lia). reflexivity.
      * unfold fn. rewrite (mget_colop _ _ (rm B) (rn B)) by (try assumption; lia). cbn [Nat.leb andb Nat.add].
        destruct (q =? j); [|reflexivity]. replace (i - rd B <? l - rd B) with (i <? l); [cbn [andb]; now destruct (i <? l)|].
        destruct (Nat.ltb_spec i l), (Nat.ltb_spec (i - rd B) (l - rd B)); lia || reflexivity.
  - unfold guard. rewrite Lj, Lk. replace (l <=? rm B) with true by (symmetry; apply Nat.leb_le; lia). cbn [andb].
    eexists. split; [reflexivity|].
    split; [split; [cbn; intros; lia|cbn; now apply wfm_colop]|]. split; [reflexivity|split; [reflexivity|split; [reflexivity|]]].
    intros i q Hi Hq. unfold stack. cbn [rd rm rn rF rA]. replace (rd B) with 0 in * by lia. change (i <? 0) with false. cbv iota. rewrite Nat.sub_0_r.
    unfold fn. rewrite (mget_colop _ _ (rm B) (rn B)) by (try assumption; lia). change (0 <=? i) with true. change (0 + l) with l. cbn [andb].
    destruct (q =? j); [|reflexivity]. destruct (i <? l); reflexivity.
Qed.

(** beyond the last row, or on a column that does not exist: out of bounds *)
Lemma split_bounds f g B j k l B' : rz_split f g B j k l = Ok B' -> j < rn B /\ k < rn B /\ l <= rd B + rm B.
Proof.
  unfold rz_split, F_colop, A_colop, guard. intros H. destruct (Nat.ltb_spec 0 (rd B)) as [D|D].
  - destruct (Nat.leb_spec l (rd B)) as [C|C].
    + destruct (j <? rn B) eqn:E1; [|discriminate]. destruct (k <? rn B) eqn:E2; [|discriminate]. apply Nat.ltb_lt in E1, E2. lia.
    + destruct (j <? rn B) eqn:E1; [|discriminate]. destruct (k <? rn B) eqn:E2; [|discriminate]. apply Nat.ltb_lt in E1, E2.
      rewrite Nat.leb_refl in H. cbn [andb bind rd rm rn rF rA] in H.
      destruct (Nat.leb_spec (l - rd B) (rm B)); [lia|]. rewrite andb_false_r in H. discriminate.
  - destruct (j <? rn B) eqn:E1; [|discriminate]. destruct (k <? rn B) eqn:E2; [|discriminate]. apply Nat.ltb_lt in E1, E2.
    destruct (Nat.leb_spec l (rm B)); [lia|discriminate].
Qed.

Lemma colswap_ok B j k : rz_wf B -> j < rn B -> k < rn B ->
  exists B', rz_colswap B j k = Ok B' /\ rz_wf B' /\ rd B' = rd B /\ rm B' = rm B /\ rn B' = rn B /\
    forall i q, i < rd B + rm B -> q < rn B ->
      stack B' i q = stack B i (if q =? j then k else if q =? k then j else q).
Proof.
  intros [WF WA] Hj Hk. unfold rz_colswap, guard. rewrite (proj2 (Nat.ltb_lt _ _) Hj), (proj2 (Nat.ltb_lt _ _) Hk). cbn [andb].
  eexists. split; [reflexivity|]. split.
  { split; cbn [rd rm rn rF rA]; [|now apply wfm_colswap]. intros D. rewrite (proj2 (Nat.ltb_lt _ _) D). apply wfm_colswap; auto. }
  split; [reflexivity|split; [reflexivity|split; [reflexivity|]]]. intros i q Hi Hq. unfold stack. cbn [rd rm rn rF rA].
  destruct (Nat.ltb_spec i (rd B)) as [I|I].
  - replace (0 <? rd B) with true by (symmetry; apply Nat.ltb_lt; lia). rewrite (mget_colswap _ (rd B) (rn B)); [reflexivity| |assumption|assumption].
    apply WF. lia.
  - unfold fn. now rewrite (mget_colswap _ (rm B) (rn B)).
Qed.

Lemma structure_length B : length (rz_structure B) = rn B.
Proof. unfold rz_structure. now rewrite run_max_length, map_length, seq_length. Qed.

Lemma last_nzr_le v n : last_nzr v n <= n.
Proof. induction n as [|n IH]; cbn; [lia|]. destruct (riszero ro (v n)); lia. Qed.
Lemma last_nzr_zero v n i : last_nzr v n <= i < n -> riszero ro (v i) = true.
Proof.
  induction n as [|n IH]; cbn; intros H; [lia|]. destruct (riszero ro (v n)) eqn:E; [|lia].
  destruct (Nat.eq_dec i n) as [->|]; [assumption|apply IH; lia].
Qed.
Lemma last_nzr_pred v n : 0 < last_nzr v n -> riszero ro (v (last_nzr v n - 1)) = false.
Proof.
  induction n as [|n IH]; cbn; [lia|]. destruct (riszero ro (v n)) eqn:E; [exact IH|]. intros _. replace (S n - 1) with n by lia. exact E.
Qed.

Definition cell_zero (c : cell) : bool := match c with Real x => riszero ro x | Int z => (z =? 0)%Z end.

Definition rz_last (B : rz X) (j : nat) : nat :=
  match last_nz (fun i => fn (rA B) i j) (rm B) with
  | O => last_nzr (fun i => mget (rzero ro) (rF B) i j) (rd B) | S k => S k + rd B end.
Lemma rz_last_le B j : rz_last B j <= rd B + rm B.
Proof.
  unfold rz_last. pose proof (last_nz_le (fun i => fn (rA B) i j) (rm B)). pose proof (last_nzr_le (fun i => mget (rzero ro) (rF B) i j) (rd B)).
  destruct (last_nz _ _); lia.
Qed.
Lemma rz_last_zero B i j : rz_last B j <= i < rd B + rm B -> cell_zero (stack B i j) = true.
Proof.
  intros [G Hi]. unfold rz_last in G. unfold stack, cell_zero. destruct (last_nz (fun i => fn (rA B) i j) (rm B)) as [|k] eqn:E.
  - destruct (Nat.ltb_spec i (rd B)) as [I|I]; [eapply (last_nzr_zero (fun i => mget (rzero ro) (rF B) i j)); split; [exact G|exact I]|].
    apply Z.eqb_eq. apply (last_nz_zero (fun i => fn (rA B) i j) (rm B)). lia.
  - replace (i <? rd B) with false by (symmetry; apply Nat.ltb_ge; lia).
    apply Z.eqb_eq. apply (last_nz_zero (fun i => fn (rA B) i j) (rm B)). lia.
Qed.
Lemma rz_last_pred B j : 0 < rz_last B j -> cell_zero (stack B (rz_last B j - 1) j) = false.
Proof.
  unfold rz_last, stack, cell_zero. pose proof (last_nz_pred (fun i => fn (rA B) i j) (rm B)) as P.
  pose proof (last_nzr_pred (fun i => mget (rzero ro) (rF B) i j) (rd B)) as Q.
  pose proof (last_nzr_le (fun i => mget (rzero ro) (rF B) i j) (rd B)) as Q2.
  destruct (last_nz (fun i => fn (rA B) i j) (rm B)) as [|k]; intros H.
  - replace (_ - 1 <? rd B) with true by (symmetry; apply Nat.ltb_lt; lia). now apply Q.
  - replace (S k + rd B - 1 <? rd B) with false by (symmetry; apply Nat.ltb_ge; lia).
    apply Z.eqb_neq. specialize (P ltac:(lia)). replace (S k + rd B - 1 - rd B) with (S k - 1) by lia. exact P.
Qed.

(** structure[j] + 1 is the largest 1 + (last row with a non zero entry) over the columns 0..j *)
Lemma structure_spec B j : j < rn B ->
  nth j (rz_structure B) 0 <= rd B + rm B /\
  (forall k i, k <= j -> nth j (rz_structure B) 0 <= i < rd B + rm B -> cell_zero (stack B i k) = true) /\
  (0 < nth j (rz_structure B) 0 -> exists k, k <= j /\ cell_zero (stack B (nth j (rz_structure B) 0 - 1) k) = false).
Proof.
  intros Hj. change (rz_structure B) with (run_max 0 (map (rz_last B) (seq 0 (rn B)))).
  set (l := map (rz_last B) (seq 0 (rn B))). assert (HL : length l = rn B) by (unfold l; now rewrite map_length, seq_length).
  assert (HN : forall k, k < rn B -> nth k l 0 = rz_last B k) by (intros k Hk; unfold l; now rewrite nth_map_seq).
  split; [|split].
  - destruct (run_max_attained 0 l j ltac:(lia)) as [->|(k & Hk & ->)]; [lia|]. rewrite HN by lia. apply rz_last_le.
  - intros k i Hk Hi. apply rz_last_zero. pose proof (run_max_mono 0 l k j ltac:(lia)).
    destruct (run_max_ge 0 l k ltac:(lia)) as [_ G]. rewrite HN in G by lia. lia.
  - intros H. destruct (run_max_attained 0 l j ltac:(lia)) as [E|(k & Hk & E)]; [lia|]. rewrite E in *. exists k. split; [assumption|].
    rewrite HN in * by lia. now apply rz_last_pred.
Qed.

Lemma getset_setZT B i j a B' : rz_wf B -> rz_setZT B i j a = Ok B' -> rz_getZT B' i j = Ok a.
Proof.
  intros [_ WA] H. unfold rz_setZT, rz_getZT, guard in *. destruct ((i <? rm B) && (j <? rn B)) eqn:E; [|discriminate]. injection H as <-.
  cbn [rm rn rA]. rewrite E. apply andb_true_iff in E as [E1 E2]. apply Nat.ltb_lt in E1, E2. f_equal. unfold fn.
  rewrite (mget_mset _ (rm B) (rn B)) by assumption. now rewrite !Nat.eqb_refl.
Qed.

(** set(i,j,a) with an integer: row i of the stacked matrix *)
Lemma set_zt_stack B i j a B' : rz_wf B -> rz_set_zt B i j a = Ok B' ->
  rd B <= i < rd B + rm B /\ j < rn B /\
  forall i' j', i' < rd B + rm B -> j' < rn B -> stack B' i' j' = if (i' =? i) && (j' =? j) then Int a else stack B i' j'.
Proof.
  intros [_ WA] H. unfold rz_set_zt, guard in H. destruct (_ && _) eqn:E in H; [|discriminate]. injection H as <-.
  apply andb_true_iff in E as [E E3]. apply andb_true_iff in E as [E1 E2]. apply Nat.leb_le in E1. apply Nat.ltb_lt in E2, E3.
  split; [lia|]. split; [assumption|]. intros i' j' Hi Hj. unfold stack. cbn [rd rF rA]. destruct (Nat.ltb_spec i' (rd B)).
  - destruct (Nat.eqb_spec i' i); [lia|reflexivity].
  - unfold fn. rewrite (mget_mset _ (rm B) (rn B)) by (assumption || lia).
    replace (i' - rd B =? i - rd B) with (i' =? i) by (destruct (Nat.eqb_spec i' i), (Nat.eqb_spec (i' - rd B) (i - rd B)); lia || reflexivity).
    destruct (_ && _); reflexivity.
Qed.

End RZ.
