(** * Machine integers, scaling and truncation: C11, C12, C13, C33, C36, C39

    [int128 z] / [int64 z]: z is a value of the signed machine type.  [lifted A def] is the
    matrix with row 0 multiplied by 2^def (floor when def < 0), [decimal l z] says that the
    characters l are the usual decimal writing of z.  All these are defined next to the models
    (MachInt.v, Trunc.v) from the standard library only. *)
From Coq Require Import ZArith Lia List Bool Arith Reals Lra Ascii.
From Verif Require Import Base Spec Mat MatOps MatOpsFacts MachInt Trunc Trunc10 TruncFloat DoubleDouble.
Import ListNotations.
Local Open Scope Z_scope.

Definition dmz (l : list (list Z)) : dmat := mkD (length (nth 0 l [])) (length l) l.

(** ** C11: mpz_get_128int : __int128 -> mpz_t, mpz_set_128int : mpz_t -> __int128 (the names in
    the source are from the point of view of the mpz argument) *)
Theorem C11_round_trip :
  (forall z, int128 z -> mpz_get_128int (mpz_set_128int z) = z /\ mpz_set_128int (mpz_get_128int z) = z) /\
  (forall z, int128 (mpz_set_128int z)) /\
  (forall z, mpz_set_128int z = z <-> int128 z).
Proof.
  split; [|split].
  - intros z H. split; [now rewrite set_128_id, get_128_id|now rewrite get_128_id, set_128_id].
  - exact set_128_range.
  - intros z. split; [|apply set_128_id]. intros E. rewrite <- E. apply set_128_range.
Qed.
(** out of range: the high word goes through mpz_get_si, which keeps the low 63 bits of the
    absolute value and the sign *)
Theorem C11_out_of_range :
  forall z, mpz_set_128int z = get_si (z / 2 ^ 64) * 2 ^ 64 + z mod 2 ^ 64.
Proof. exact set_128_formula. Qed.
(** hence it is not reduction modulo 2^128 *)
Theorem C11_modular_refuted :
  ~ (forall z, mpz_set_128int z mod 2 ^ 128 = z mod 2 ^ 128).
Proof. intros H. specialize (H (2 ^ 127)). vm_compute in H. discriminate. Qed.
Example C11_case : int128 (- 2 ^ 127) /\ mpz_set_128int (- 2 ^ 127) = - 2 ^ 127 /\
  mpz_get_128int (2 ^ 127 - 1) = 2 ^ 127 - 1 /\ mpz_set_128int (- 1) = - 1 /\ mpz_set_128int (2 ^ 127) = 0.
Proof. unfold int128. vm_compute. repeat split; congruence. Qed.

(** ** C12 *)
Theorem C12_print_int128 :
  forall z, - 2 ^ 127 < z < 2 ^ 127 -> exists l, print128 z = Ok l /\ decimal l z.
Proof. exact print128_ok. Qed.
(** a decimal writing determines the value and is unique *)
Theorem C12_decimal_unambiguous :
  forall l z z', decimal l z -> decimal l z' -> z = z'.
Proof.
  intros l z z' H H'. unfold decimal in *.
  destruct (Z.ltb_spec z 0), (Z.ltb_spec z' 0).
  - destruct H as (u & -> & H), H' as (u' & E & H'). injection E as <-.
    destruct H as (_ & _ & E1 & _), H' as (_ & _ & E2 & _). lia.
  - destruct H as (u & -> & H). destruct H' as (_ & D & _). inversion D; subst.
    exfalso. unfold is_digit in *. match goal with X : (48 <= nat_of_ascii "-" < 58)%nat |- _ => cbn in X; lia end.
  - destruct H' as (u & -> & H'). destruct H as (_ & D & _). inversion D; subst.
    exfalso. unfold is_digit in *. match goal with X : (48 <= nat_of_ascii "-" < 58)%nat |- _ => cbn in X; lia end.
  - destruct H as (_ & _ & E1 & _), H' as (_ & _ & E2 & _). lia.
Qed.
(** the most negative value: the negation overflows (undefined behaviour) *)
Theorem C12_most_negative_refuted : print128 (- 2 ^ 127) = UB.
Proof. vm_compute. reflexivity. Qed.
Example C12_case : print128 (- 1203) = Ok ["-"; "1"; "2"; "0"; "3"]%char /\ print128 0 = Ok ["0"]%char.
Proof. split; vm_compute; reflexivity. Qed.

(** ** C13: lift_truncate.  [dropped bits mmin] is the number of bits dropped from every entry,
    [mmin] the bit size of the smallest column (max over its entries) of the lifted matrix. *)
Theorem C13_lift_truncate :
  forall (C A : dmat) (def bits : Z), dwf C -> (0 < dr A <= dr C)%nat -> (0 < dc A <= dc C)%nat ->
  exists C' mmin, lift_truncate C A def bits = Ok C' /\ dr C' = dr C /\ dc C' = dc C /\
    min_colsize (dr A) (dc A) (lifted (ent A) def) mmin /\
    (forall i j, (i < dr A)%nat -> (j < dc A)%nat ->
       ent C' i j = lifted (ent A) def i j / 2 ^ (if 0 <? bits then Z.max 0 (mmin - 2 - bits) else 0)) /\
    (0 < bits -> bits + 2 < mmin -> forall j, (j < dc A)%nat ->
       exists i, (i < dr A)%nat /\ 2 ^ (bits + 1) <= Z.abs (ent C' i j)).
Proof.
  intros C A def bits W Hr Hc. destruct (lift_truncate_ok C A def bits W Hr Hc) as (C' & m & E & D1 & D2 & _ & M & V & K).
  exists C', m. do 4 (split; [assumption|]). split; [exact V|].
  intros Hb Hm j Hj. destruct (K ltac:(unfold dropped; destruct (Z.ltb_spec 0 bits); lia) j Hj) as (i & Hi & L).
  exists i. split; [assumption|].
  destruct (Z.le_gt_cases (2 ^ (bits + 1)) (Z.abs (ent C' i j))) as [|G]; [assumption|].
  apply sizeinbase2_lt in G; lia.
Qed.

(** the 64-bit variant *)
Theorem C13_lift_truncate_long :
  forall (Cout A : dmat) (def bits : Z), dwf Cout -> (0 < dr A <= dr Cout)%nat -> (0 < dc A <= dc Cout)%nat ->
  exists Co warn mmin mmax, lift_truncate_long Cout A def bits = Ok (Co, warn) /\
    min_colsize (dr A) (dc A) (lifted (ent A) def) mmin /\ max_size (dr A) (dc A) (lifted (ent A) def) mmax /\
    let k := if 0 <? bits then Z.max 0 (mmin - 2 - bits) else 0 in
    (forall i j, (i < dr A)%nat -> (j < dc A)%nat -> ent Co i j = get_si (lifted (ent A) def i j / 2 ^ k)) /\
    (** a truncation that prints no warning is exact *)
    (0 < k -> warn = false ->
      forall i j, (i < dr A)%nat -> (j < dc A)%nat -> ent Co i j = lifted (ent A) def i j / 2 ^ k) /\
    (warn = true <-> 0 < k /\ 63 < mmax - k).
Proof.
  intros Cout A def bits W Hr Hc.
  destruct (lift_truncate_long_ok Cout A def bits W Hr Hc) as (Co & w & mi & ma & E & M1 & M2 & V & HW).
  exists Co, w, mi, ma. do 3 (split; [assumption|]). intros k. fold (dropped bits mi) in k. subst k.
  split; [exact V|]. split; [|exact HW].
  intros Hk Hw i j Hi Hj. rewrite V by assumption. apply get_si_id.
  assert (mm : ma - dropped bits mi <= 63).
  { destruct (Z.le_gt_cases (ma - dropped bits mi) 63); [assumption|].
    assert (w = true) by (apply HW; lia). congruence. }
  pose proof (min_max _ _ _ _ _ (proj1 Hc) M1 M2).
  assert (0 < ma - dropped bits mi).
  { unfold dropped in *. destruct (Z.ltb_spec 0 bits); lia. }
  pose proof (floor_range (lifted (ent A) def i j) (dropped bits mi) ma ltac:(lia) ltac:(lia) (proj1 M2 i j Hi Hj)) as F.
  pose proof (Z.pow_le_mono_r 2 (ma - dropped bits mi) 63 ltac:(lia) mm). unfold int64. lia.
Qed.
(** without truncation the entries are reduced silently: no warning, wrong value *)
Theorem C13_long_silent_overflow_refuted :
  ~ (forall (Cout A : dmat) (def bits : Z) Co, dwf Cout -> dr A = dr Cout -> dc A = dc Cout -> (0 < dr A)%nat -> (0 < dc A)%nat ->
      lift_truncate_long Cout A def bits = Ok (Co, false) ->
      exists k, forall i j, (i < dr A)%nat -> (j < dc A)%nat -> ent Co i j = lifted (ent A) def i j / 2 ^ k).
Proof.
  intros H. destruct (H (dmz [[0; 0]]) (dmz [[2 ^ 63; 1]]) 0 0 (dmz [[0; 1]])) as (k & Hk); try reflexivity; try (cbn; lia).
  - repeat constructor.
  - pose proof (Hk 0%nat 0%nat ltac:(cbn; lia) ltac:(cbn; lia)) as E0.
    pose proof (Hk 1%nat 0%nat ltac:(cbn; lia) ltac:(cbn; lia)) as E1.
    change (ent (dmz [[0; 1]]) 0%nat 0%nat) with 0 in E0. change (ent (dmz [[0; 1]]) 1%nat 0%nat) with 1 in E1.
    change (lifted (ent (dmz [[2 ^ 63; 1]])) 0 0%nat 0%nat) with (2 ^ 63) in E0.
    change (lifted (ent (dmz [[2 ^ 63; 1]])) 0 1%nat 0%nat) with 1 in E1.
    destruct (Z.lt_trichotomy k 0) as [L|[->|L]].
    + rewrite Z.pow_neg_r in E1 by lia. vm_compute in E1. discriminate.
    + vm_compute in E0. discriminate.
    + rewrite Z.div_small in E1; [discriminate|]. split; [lia|]. apply Z.pow_gt_1; lia.
Qed.

(** the 128-bit variant: when bits > 0 it either stops the program or is exact *)
Theorem C13_lift_truncate_128 :
  forall (Cout A : dmat) (def bits : Z), dwf Cout -> (0 < dr A <= dr Cout)%nat -> (0 < dc A <= dc Cout)%nat -> 0 < bits ->
  exists mmin mmax,
    min_colsize (dr A) (dc A) (lifted (ent A) def) mmin /\ max_size (dr A) (dc A) (lifted (ent A) def) mmax /\
    let k := Z.max 0 (mmin - 2 - bits) in
    if 127 <? mmax - k then lift_truncate_128 Cout A def bits = Ok None
    else exists Co, lift_truncate_128 Cout A def bits = Ok (Some Co) /\
      forall i j, (i < dr A)%nat -> (j < dc A)%nat -> ent Co i j = lifted (ent A) def i j / 2 ^ k.
Proof.
  intros Cout A def bits W Hr Hc Hb.
  destruct (lift_truncate_128_ok Cout A def bits W Hr Hc) as (mi & ma & M1 & M2 & H).
  exists mi, ma. do 2 (split; [assumption|]). intros k.
  assert (Ek : dropped bits mi = k) by (unfold dropped; destruct (Z.ltb_spec 0 bits); [reflexivity|lia]).
  rewrite Ek in H. destruct H as [(_ & L & E)|([L|L] & Co & E & V)].
  - destruct (Z.ltb_spec 127 (ma - k)); [exact E|lia].
  - lia.
  - destruct (Z.ltb_spec 127 (ma - k)); [lia|]. exists Co. split; [exact E|]. intros i j Hi Hj.
    rewrite V by assumption. apply set_128_id.
    pose proof (min_max _ _ _ _ _ (proj1 Hc) M1 M2).
    assert (1 <= ma).
    { destruct (proj2 M2) as (r & s & _ & _ & <-). apply sizeinbase2_pos. }
    pose proof (floor_range (lifted (ent A) def i j) k ma ltac:(lia) ltac:(lia) (proj1 M2 i j Hi Hj)) as F.
    pose proof (Z.pow_le_mono_r 2 (ma - k) 127 ltac:(lia) ltac:(lia)). unfold int128. lia.
Qed.
Example C13_case :
  let A := dmz [[1000; 3; -5]; [17; 4; 2]; [-90; 1; 8]] in
  (exists C', lift_truncate (dmz [[0; 0; 0]; [0; 0; 0]; [0; 0; 0]]) A 6 0 = Ok C' /\
      ent C' 0%nat 0%nat = 64000 /\ ent C' 0%nat 2%nat = -5760 /\ ent C' 2%nat 0%nat = -5) /\
  (exists C', lift_truncate (dmz [[0; 0; 0]; [0; 0; 0]; [0; 0; 0]]) A 6 5 = Ok C' /\
      ent C' 0%nat 0%nat = 4000 /\ ent C' 0%nat 1%nat = 68 /\ ent C' 0%nat 2%nat = -360 /\ ent C' 2%nat 0%nat = -1) /\
  lift_truncate_long (dmz [[0; 0; 0]; [0; 0; 0]; [0; 0; 0]]) A 6 5 =
    Ok (dmz [[4000; 0; -1]; [68; 0; 0]; [-360; 0; 0]], false) /\
  lift_truncate_128 (dmz [[0; 0; 0]; [0; 0; 0]; [0; 0; 0]]) A 6 5 =
    Ok (Some (dmz [[4000; 0; -1]; [68; 0; 0]; [-360; 0; 0]])).
Proof.
  intros A. split; [|split; [|split]].
  - eexists. split; [vm_compute; reflexivity|]. repeat split; reflexivity.
  - eexists. split; [vm_compute; reflexivity|]. repeat split; reflexivity.
  - vm_compute. reflexivity.
  - vm_compute. reflexivity.
Qed.

(** ** C33: trunc.  With tau > 0 the first d rows are first divided by 10^k1, where
    k1 = (long)((double) tau * 0.301029995): at most tau bits are thrown away.  Then, for t < 0 the
    lower rows are replaced by the identity, and for t >= 0 everything is divided by one power
    10^k2, k2 = 0 when t = 0 or when no entry has more than t bits. *)
Theorem C33_trunc :
  forall (B A : dmat) (d n m : nat) (t tau : Z), dwf B ->
  (d <= m)%nat -> (m <= dr A)%nat -> (m <= dr B)%nat -> (n <= dc A)%nat -> (n <= dc B)%nat -> (t < 0 -> (m - d <= n)%nat) ->
  exists k1 : Z, 0 <= k1 /\ (tau <= 0 -> k1 = 0) /\ (0 < tau -> 10 ^ k1 <= 2 ^ tau) /\
  let top := fun i j => if (i <? d)%nat then Z.quot (ent A i j) (10 ^ k1) else ent A i j in
  exists B', trunc e10_double e10_double' B A d n m t tau = Ok B' /\
    (t < 0 -> forall i j, (i < m)%nat -> (j < n)%nat ->
       ent B' i j = if (i <? d)%nat then top i j else if (j =? i - d)%nat then 1 else 0) /\
    (0 <= t -> exists k2, 0 <= k2 /\
       ((t = 0 \/ forall i j, (i < m)%nat -> (j < n)%nat -> Z.abs (top i j) < 2 ^ t) -> k2 = 0) /\
       forall i j, (i < m)%nat -> (j < n)%nat -> ent B' i j = Z.quot (top i j) (10 ^ k2)).
Proof.
  intros B A d n m t tau W H1 H2 H3 H4 H5 H6.
  exists (if 0 <? tau then e10_double tau else 0).
  split; [destruct (Z.ltb_spec 0 tau); [now apply e10_bound|lia]|].
  split; [intros; destruct (Z.ltb_spec 0 tau); lia|].
  split; [intros Ht; destruct (Z.ltb_spec 0 tau); [now apply e10_throws_at_most|lia]|].
  intros top.
  assert (ET : forall i j, thrown e10_double tau d (ent A) i j = top i j).
  { intros i j. unfold thrown, top. destruct (i <? d)%nat, (0 <? tau); cbn [andb]; try reflexivity.
    now rewrite Z.pow_0_r, Z.quot_1_r. }
  destruct (trunc_ok e10_double e10_double' B A d n m t tau W H1 H2 H3 H4 H5 H6) as (B' & E & _ & _ & _ & P & Q).
  exists B'. split; [exact E|]. split.
  - intros Ht i j Hi Hj. rewrite (P Ht i j Hi Hj). destruct (i <? d)%nat; [apply ET|reflexivity].
  - intros Ht. destruct (Q Ht) as (mx & M & V).
    eexists. split; [|split; [|intros i j Hi Hj; rewrite (V i j Hi Hj), ET; reflexivity]].
    + cbn beta. destruct ((t =? 0) || (mx <=? t)); lia.
    + cbn beta. intros [->|S].
      * reflexivity.
      * destruct (Z.eqb_spec t 0); [reflexivity|]. cbn [orb].
        destruct (Z.leb_spec mx t); [reflexivity|]. exfalso.
        destruct M as (_ & _ & [->|(i & j & [Hi Hj] & E1)]); [lia|].
        specialize (S i j Hi Hj). rewrite <- ET in S. apply sizeinbase2_lt in S; lia.
Qed.

Example C33_case :
  let A := dmz [[1000; 1; 0]; [-77; 0; 1]] in let Z3 := dmz [[0; 0; 0]; [0; 0; 0]] in
  dwf Z3 /\ (0 <= e10_double 10) /\ 10 ^ e10_double 10 <= 2 ^ 10 /\
  trunc e10_double e10_double' Z3 A 1 2 3 (-1) 0 = Ok (dmz [[1000; 1; 0]; [-77; 0; 1]]) /\
  trunc e10_double e10_double' Z3 A 1 2 3 12 0 = Ok A /\
  trunc (fun _ => 1) (fun _ _ => 2) Z3 A 1 2 3 4 4 = Ok (dmz [[1; 0; 0]; [0; 0; 0]]).
Proof.
  intros A Z3. split; [repeat constructor|]. split; [now apply e10_bound|]. split; [now apply e10_throws_at_most|].
  split; [|split]; lazy; reflexivity.
Qed.

(** ** C36: the error of the conversion to double-double is at least that of the conversion to double *)
Theorem C36_dd_error_adds :
  forall a, Rabs (dd_set_z a - IZR a) = (Rabs (dd_hi a - IZR a) + Rabs (dd_lo a))%R /\
            (dd_hi a <> IZR a -> Rabs (dd_hi a - IZR a) < Rabs (dd_set_z a - IZR a))%R.
Proof.
  intros a. destruct (dd_set_z_error a) as [E P]. split; [exact E|]. intros N. rewrite E. specialize (P N). lra.
Qed.
(** it is exact exactly on the integers that are doubles, and otherwise off by about twice the
    rounding error to double *)
Theorem C36_dd_exact_iff :
  forall a, (dd_set_z a = IZR a <-> dd_hi a = IZR a) /\
    (Rabs (dd_set_z a - IZR a) <= (2 + / 9007199254740992) * Rabs (dd_hi a - IZR a))%R.
Proof.
  intros a. destruct (dd_set_z_error a) as [E P].
  assert (L : (Rabs (dd_lo a) <= (1 + / 9007199254740992) * Rabs (dd_hi a - IZR a))%R).
  { unfold dd_lo. destruct (rnd64_int a) as (b & Hb). fold (dd_hi a) in Hb. rewrite Hb.
    rewrite Flocq.Core.Raux.Ztrunc_IZR, <- minus_IZR. set (k := b - a).
    destruct (Z.lt_total k 0) as [Lk|[Ek|Lk]].
    - pose proof (rnd64_err (IZR (- k)) (bpow_small (IZR (- k)) ltac:(assert (1 <= IZR (- k))%R by (apply IZR_le; lia); lra))) as B.
      assert (N : (IZR k < 0)%R) by (apply IZR_lt; lia).
      pose proof (rnd64_pos_int (- k) ltac:(lia)). rewrite opp_IZR, rnd64_opp in *. rewrite !Rabs_left by lra. lra.
    - rewrite Ek, rnd64_0, Rabs_R0. lra.
    - pose proof (rnd64_err (IZR k) (bpow_small (IZR k) ltac:(assert (1 <= IZR k)%R by (apply IZR_le; lia); lra))) as B.
      assert (N : (0 < IZR k)%R) by (apply IZR_lt; lia).
      pose proof (rnd64_pos_int k ltac:(lia)). rewrite !Rabs_right by lra. lra. }
  pose proof (Rabs_pos (dd_lo a)) as P1. pose proof (Rabs_pos (dd_hi a - IZR a)) as P2.
  split; [|lra]. split.
  - intros H. rewrite H in E. rewrite Rminus_diag_eq, Rabs_R0 in E by reflexivity.
    assert (Z0 : Rabs (dd_hi a - IZR a) = 0%R) by lra.
    destruct (Req_dec (dd_hi a - IZR a) 0) as [|N]; [lra|]. apply Rabs_no_R0 in N. lra.
  - intros H. rewrite H in *. replace (IZR a - IZR a)%R with 0%R in * by ring. rewrite Rabs_R0 in *.
    assert (Z0 : Rabs (dd_set_z a - IZR a) = 0%R) by lra.
    destruct (Req_dec (dd_set_z a - IZR a) 0) as [|N]; [lra|]. apply Rabs_no_R0 in N. lra.
Qed.
(** the conversion is not more precise than a double *)
Theorem C36_dd_precise_refuted :
  ~ (forall a, int128 a -> Rabs (dd_set_z a - IZR a) <= Rabs (dd_hi a - IZR a))%R.
Proof.
  intros H. specialize (H (2 ^ 53 + 1)). destruct (C36_dd_error_adds (2 ^ 53 + 1)) as [_ P].
  specialize (P not_double). assert (int128 (2 ^ 53 + 1)) by (unfold int128; lia). specialize (H ltac:(assumption)). lra.
Qed.

(** ** C39 *)
Theorem C39_matrix_cast :
  forall (A : dmat) (conv : Z -> Z) (bits : Z) (fits : Z -> Prop),
    (conv = get_si /\ bits = 64 /\ fits = int64) \/ (conv = mpz_set_128int /\ bits = 128 /\ fits = int128) ->
  exists B err, matrix_cast conv bits A = Ok (B, err) /\ dr B = dr A /\ dc B = dc A /\
    (** silent exactly when every absolute value is below 2^(bits-1), and then exact *)
    (err = false <-> forall i j, (i < dr A)%nat -> (j < dc A)%nat -> Z.abs (ent A i j) < 2 ^ (bits - 1)) /\
    (err = false -> forall i j, (i < dr A)%nat -> (j < dc A)%nat -> ent B i j = ent A i j) /\
    (** in any case an entry is right exactly when it fits the type *)
    (forall i j, (i < dr A)%nat -> (j < dc A)%nat -> fits (ent B i j) /\ (ent B i j = ent A i j <-> fits (ent A i j))).
Proof.
  intros A conv bits fits H.
  assert (Hb : 1 < bits) by (destruct H as [(-> & -> & ->)|(-> & -> & ->)]; lia).
  destruct (matrix_cast_ok conv bits A Hb) as (B & err & E & D1 & D2 & V & S).
  assert (F : forall i j, (i < dr A)%nat -> (j < dc A)%nat -> fits (ent B i j) /\ (ent B i j = ent A i j <-> fits (ent A i j))).
  { intros i j Hi Hj. rewrite (V i j Hi Hj). destruct H as [(-> & -> & ->)|(-> & -> & ->)].
    - split; [apply get_si_range|]. apply get_si_fix.
    - split; [apply set_128_range|]. split; [|apply set_128_id]. intros X. rewrite <- X. apply set_128_range. }
  exists B, err. do 4 (split; [assumption|]). split; [|exact F].
  intros He i j Hi Hj. apply (proj2 (F i j Hi Hj)). pose proof (proj1 S He i j Hi Hj) as L.
  destruct H as [(-> & -> & ->)|(-> & -> & ->)]; unfold int64, int128; cbn [Z.sub Z.opp Z.pos_sub] in L; lia.
Qed.
Example C39_case : matrix_cast get_si 64 (dmz [[2 ^ 63 - 1; -5]; [0; - 2 ^ 62]]) =
    Ok (dmz [[2 ^ 63 - 1; -5]; [0; - 2 ^ 62]], false) /\
  matrix_cast get_si 64 (dmz [[2 ^ 63; -5]]) = Ok (dmz [[0; -5]], true) /\
  (** the most negative value is converted exactly although the error is printed *)
  matrix_cast get_si 64 (dmz [[- 2 ^ 63; -5]]) = Ok (dmz [[- 2 ^ 63; -5]], true) /\
  matrix_cast mpz_set_128int 128 (dmz [[2 ^ 100; -5]]) = Ok (dmz [[2 ^ 100; -5]], false).
Proof. repeat split; vm_compute; reflexivity. Qed.

Print Assumptions C11_round_trip.
Print Assumptions C12_print_int128.
Print Assumptions C13_lift_truncate.
Print Assumptions C13_lift_truncate_long.
Print Assumptions C13_lift_truncate_128.
Print Assumptions C33_trunc.
Print Assumptions C36_dd_precise_refuted.
Print Assumptions C39_matrix_cast.
