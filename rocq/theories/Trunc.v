(** * lift_truncate and trunc, src/mat.h 2199-2560 *)
From Coq Require Import ZArith Lia List Bool Arith.
From Verif Require Import Base Spec Mat MatOps MatOpsFacts MachInt.
Import ListNotations.
Local Open Scope Z_scope.

(** fplll Z_NR<mpz_t>::mul_2si: mpz_mul_2exp or mpz_div_2exp (floor) *)
Definition mul_2si (a b : Z) : Z := if 0 <=? b then a * 2 ^ b else a / 2 ^ (- b).

(** 2207-2216 (2272-2280, 2366-2373): first row scaled by 2^def, the other rows copied *)
Definition lift_rows (C A : dmat) (def : Z) : res dmat :=
  let* C1 := for_ (dc A) (fun j M => let* a := gget A 0 j in gset M 0 j (mul_2si a def)) C in
  mfold (fun i => for_ (dc A) (fun j M => let* a := gget A i j in gset M i j a)) (seq 1 (dr A - 1)) C1.

(** maximal bit size in column [j] *)
Definition col_bits (C : dmat) (n j : nat) : res Z :=
  for_ n (fun i m => let* c := gget C i j in Ok (Z.max m (sizeinbase2 (Z.abs c)))) 0.
(** 2224-2241: column 0, then the minimum with the other columns *)
Definition min_bits (C : dmat) (n d : nat) : res Z :=
  let* m0 := col_bits C n 0 in
  mfold (fun j m => let* x := col_bits C n j in Ok (Z.min m x)) (seq 1 (d - 1)) m0.
(** 2291-2307: the maximum as well *)
Definition max_bits (C : dmat) (n d : nat) : res Z :=
  let* m0 := col_bits C n 0 in
  mfold (fun j m => let* x := col_bits C n j in Ok (Z.max m x)) (seq 1 (d - 1)) m0.
(** 2250-2252 *)
Definition scale (C : dmat) (n d : nat) (s : Z) : res dmat :=
  for2 n d (fun i j M => let* c := gget M i j in gset M i j (mul_2si c s)) C.

(** lift_truncate(ZZ_mat<mpz_t>), 2199-2257 *)
Definition lift_truncate (C A : dmat) (def bits : Z) : res dmat :=
  let n := dr A in let d := dc A in
  let* C1 := lift_rows C A def in
  if 0 <? bits then
    let* mmin := min_bits C1 n d in
    if bits <=? mmin - 2 then scale C1 n d (bits - mmin + 2) else Ok C1
  else Ok C1.

(** the maximum printed as "Remains down", 2325-2333: rows and columns from 1 *)
Definition remains_down (C : dmat) (n d : nat) : res Z :=
  mfold (fun j => mfold (fun i m => let* c := gget C i j in Ok (Z.max m (sizeinbase2 (Z.abs c)))) (seq 1 (n - 1)))
        (seq 1 (d - 1)) 0.

(** lift_truncate(ZZ_mat<long>), 2262-2352: result and whether the warning was printed *)
Definition lift_truncate_long (Cout A : dmat) (def bits : Z) : res (dmat * bool) :=
  let n := dr A in let d := dc A in
  let* C1 := lift_rows (resize0 n d) A def in
  let* (C2, warn) :=
    (if 0 <? bits then
      let* mmin := min_bits C1 n d in
      let* mmax := max_bits C1 n d in
      if bits <? mmin - 2 then
        let s := bits - mmin + 2 in
        let* C2 := scale C1 n d s in
        let* _ := remains_down C2 n d in
        Ok (C2, 63 <? mmax + s)
      else Ok (C1, false)
    else Ok (C1, false)) in
  let* Co := for2 n d (fun i j M => let* c := gget C2 i j in gset M i j (get_si c)) Cout in
  Ok (Co, warn).

(** lift_truncate(ZZ_mat<__int128_t>), 2356-2452: [None] is exit(EXIT_FAILURE) *)
Definition lift_truncate_128 (Cout A : dmat) (def bits : Z) : res (option dmat) :=
  let n := dr A in let d := dc A in
  let* C1 := lift_rows (resize0 n d) A def in
  let* (C2, quit) :=
    (if 0 <? bits then
      let* mmin := min_bits C1 n d in
      let* mmax := max_bits C1 n d in
      if bits <? mmin - 2 then
        let s := bits - mmin + 2 in
        let* C2 := scale C1 n d s in
        let* _ := remains_down C2 n d in
        Ok (C2, 127 <? mmax + s)
      else Ok (C1, 127 <? mmax)
    else Ok (C1, false)) in
  if quit then Ok None else
  let* Co := for2 n d (fun i j M => let* c := gget C2 i j in gset M i j (mpz_set_128int c)) Cout in
  Ok (Some Co).

(** ** Facts *)
Definition foldmax (f : nat -> Z) (l : list nat) (s : Z) : Z := fold_left (fun m i => Z.max m (f i)) l s.
Definition foldmin (f : nat -> Z) (l : list nat) (s : Z) : Z := fold_left (fun m i => Z.min m (f i)) l s.

Lemma foldmax_spec f l s : s <= foldmax f l s /\ (forall i, In i l -> f i <= foldmax f l s) /\
  (foldmax f l s = s \/ exists i, In i l /\ foldmax f l s = f i).
Proof.
  revert s. induction l as [|a l IH]; intros s; cbn [foldmax fold_left].
  - split; [lia|]. split; [intros ? []|now left].
  - destruct (IH (Z.max s (f a))) as (H1 & H2 & H3). unfold foldmax in *. split; [lia|]. split.
    + intros i [<-|Hi]; [lia|]. now apply H2.
    + destruct H3 as [->|(i & Hi & ->)].
      * destruct (Z.max_spec s (f a)) as [[? ->]|[? ->]]; [right; exists a; split; [now left|reflexivity]|now left].
      * right. exists i. split; [now right|reflexivity].
Qed.
Lemma foldmin_spec f l s : foldmin f l s <= s /\ (forall i, In i l -> foldmin f l s <= f i) /\
  (foldmin f l s = s \/ exists i, In i l /\ foldmin f l s = f i).
Proof.
  revert s. induction l as [|a l IH]; intros s; cbn [foldmin fold_left].
  - split; [lia|]. split; [intros ? []|now left].
  - destruct (IH (Z.min s (f a))) as (H1 & H2 & H3). unfold foldmin in *. split; [lia|]. split.
    + intros i [<-|Hi]; [lia|]. now apply H2.
    + destruct H3 as [->|(i & Hi & ->)].
      * destruct (Z.min_spec s (f a)) as [[? ->]|[? ->]]; [now left|right; exists a; split; [now left|reflexivity]].
      * right. exists i. split; [now right|reflexivity].
Qed.

Definition cbits (C : zmat) (n j : nat) : Z := foldmax (fun i => sizeinbase2 (Z.abs (C i j))) (seq 0 n) 0.

Lemma col_bits_ok C n j : (n <= dr C)%nat -> (j < dc C)%nat -> col_bits C n j = Ok (cbits (ent C) n j).
Proof.
  intros Hn Hj. unfold col_bits, for_, cbits, foldmax.
  rewrite mfold_pure with (g := fun i m => Z.max m (sizeinbase2 (Z.abs (ent C i j)))); [reflexivity|].
  intros i s Hi. apply in_seq in Hi. rewrite gget_ok by lia. reflexivity.
Qed.

Lemma cbits_spec C n j : (0 < n)%nat ->
  (forall i, (i < n)%nat -> sizeinbase2 (C i j) <= cbits C n j) /\
  (exists i, (i < n)%nat /\ sizeinbase2 (C i j) = cbits C n j).
Proof.
  intros Hn. unfold cbits.
  destruct (foldmax_spec (fun i => sizeinbase2 (Z.abs (C i j))) (seq 0 n) 0) as (H1 & H2 & H3).
  assert (A : forall z, sizeinbase2 (Z.abs z) = sizeinbase2 z).
  { intros z. unfold sizeinbase2. rewrite Z.abs_involutive. destruct (Z.eqb_spec z 0) as [->|]; [reflexivity|].
    destruct (Z.eqb_spec (Z.abs z) 0); [lia|reflexivity]. }
  split.
  - intros i Hi. rewrite <- A. apply H2. apply in_seq. lia.
  - destruct H3 as [E|(i & Hi & E)].
    + specialize (H2 0%nat ltac:(apply in_seq; lia)). pose proof (sizeinbase2_pos (Z.abs (C 0%nat j))). lia.
    + apply in_seq in Hi. exists i. split; [lia|]. now rewrite E, A.
Qed.

(** [m] is the smallest over the columns of the largest bit size of a column *)
Definition min_colsize (n d : nat) (L : zmat) (m : Z) : Prop :=
  (forall j, (j < d)%nat -> exists i, (i < n)%nat /\ m <= sizeinbase2 (L i j)) /\
  (exists j, (j < d)%nat /\ forall i, (i < n)%nat -> sizeinbase2 (L i j) <= m).
(** [m] is the largest bit size of an entry *)
Definition max_size (n d : nat) (L : zmat) (m : Z) : Prop :=
  (forall i j, (i < n)%nat -> (j < d)%nat -> sizeinbase2 (L i j) <= m) /\
  (exists i j, (i < n)%nat /\ (j < d)%nat /\ sizeinbase2 (L i j) = m).

Lemma min_bits_ok C n d : (0 < n <= dr C)%nat -> (0 < d <= dc C)%nat ->
  exists m, min_bits C n d = Ok m /\ min_colsize n d (ent C) m.
Proof.
  intros Hn Hd. unfold min_bits. rewrite col_bits_ok by lia. cbn [bind].
  rewrite mfold_pure with (g := fun j m => Z.min m (cbits (ent C) n j)).
  2:{ intros j s Hj. apply in_seq in Hj. rewrite col_bits_ok by lia. reflexivity. }
  eexists. split; [reflexivity|].
  destruct (foldmin_spec (cbits (ent C) n) (seq 1 (d - 1)) (cbits (ent C) n 0)) as (H1 & H2 & H3).
  unfold foldmin in *. set (m := fold_left _ _ _) in *. split.
  - intros j Hj. destruct (cbits_spec (ent C) n j ltac:(lia)) as (_ & i & Hi & E). exists i. split; [assumption|].
    rewrite E. destruct (Nat.eq_dec j 0) as [->|]; [assumption|]. apply H2. apply in_seq. lia.
  - destruct H3 as [E|(j & Hj & E)].
    + exists 0%nat. split; [lia|]. rewrite E. apply cbits_spec. lia.
    + apply in_seq in Hj. exists j. split; [lia|]. rewrite E. apply cbits_spec. lia.
Qed.

Lemma max_bits_ok C n d : (0 < n <= dr C)%nat -> (0 < d <= dc C)%nat ->
  exists m, max_bits C n d = Ok m /\ max_size n d (ent C) m.
Proof.
  intros Hn Hd. unfold max_bits. rewrite col_bits_ok by lia. cbn [bind].
  rewrite mfold_pure with (g := fun j m => Z.max m (cbits (ent C) n j)).
  2:{ intros j s Hj. apply in_seq in Hj. rewrite col_bits_ok by lia. reflexivity. }
  eexists. split; [reflexivity|].
  destruct (foldmax_spec (cbits (ent C) n) (seq 1 (d - 1)) (cbits (ent C) n 0)) as (H1 & H2 & H3).
  unfold foldmax in *. set (m := fold_left _ _ _) in *. split.
  - intros i j Hi Hj. destruct (cbits_spec (ent C) n j ltac:(lia)) as (B & _). specialize (B i Hi).
    destruct (Nat.eq_dec j 0) as [->|]; [lia|]. specialize (H2 j ltac:(apply in_seq; lia)). lia.
  - destruct H3 as [E|(j & Hj & E)].
    + destruct (cbits_spec (ent C) n 0 ltac:(lia)) as (_ & i & Hi & E'). exists i, 0%nat. split; [lia|]. split; [lia|]. congruence.
    + apply in_seq in Hj. destruct (cbits_spec (ent C) n j ltac:(lia)) as (_ & i & Hi & E'). exists i, j. split; [lia|]. split; [lia|]. congruence.
Qed.

Lemma remains_down_ok C n d : (n <= dr C)%nat -> (d <= dc C)%nat -> exists m, remains_down C n d = Ok m.
Proof.
  intros Hn Hd. unfold remains_down.
  destruct (mfold_ok (fun _ : Z => True) (fun j => mfold (fun i m => let* c := gget C i j in Ok (Z.max m (sizeinbase2 (Z.abs c)))) (seq 1 (n - 1)))
        (seq 1 (d - 1)) 0) as (m & -> & _); eauto.
  intros j m Hj _. apply in_seq in Hj. apply mfold_ok; auto. intros i m' Hi _. apply in_seq in Hi.
  rewrite gget_ok by lia. cbn [bind]. eauto.
Qed.

(** the lifted matrix *)
Definition lifted (A : zmat) (def : Z) : zmat := fun i j =>
  match i with O => if 0 <=? def then A i j * 2 ^ def else A i j / 2 ^ (- def) | S _ => A i j end.

Lemma lift_rows_ok C A def : dwf C -> (0 < dr A <= dr C)%nat -> (dc A <= dc C)%nat ->
  exists C', lift_rows C A def = Ok C' /\ dwf C' /\ dr C' = dr C /\ dc C' = dc C /\
    meq (dr A) (dc A) (ent C') (lifted (ent A) def).
Proof.
  intros W Hr Hc. unfold lift_rows.
  set (f := fun i j => lifted (ent A) def i j).
  assert (E : (let* C1 := for_ (dc A) (fun j M => let* a := gget A 0 j in gset M 0 j (mul_2si a def)) C in
    mfold (fun i => for_ (dc A) (fun j M => let* a := gget A i j in gset M i j a)) (seq 1 (dr A - 1)) C1) =
    for2 (dr A) (dc A) (fun i j M => let* a := gget A i j in gset M i j (match i with O => mul_2si a def | _ => a end)) C).
  { unfold for2, for_ at 3. destruct (dr A) as [|n] eqn:En; [lia|]. cbn [seq mfold].
    replace (S n - 1)%nat with n by lia.
    destruct (for_ (dc A) _ C) as [C1| |]; [|reflexivity|reflexivity]. cbn [bind].
    assert (G : forall l C1, (forall i, In i l -> i <> 0%nat) ->
      mfold (fun i => for_ (dc A) (fun j M => let* a := gget A i j in gset M i j a)) l C1 =
      mfold (fun i => for_ (dc A) (fun j M => let* a := gget A i j in gset M i j (match i with O => mul_2si a def | _ => a end))) l C1).
    { induction l as [|i l IH]; intros C2 Hl; [reflexivity|]. cbn [mfold].
      assert (i <> 0%nat) by (apply Hl; now left). destruct i as [|i]; [lia|].
      destruct (for_ (dc A) _ C2); [|reflexivity|reflexivity]. cbn [bind]. apply IH. intros; apply Hl; now right. }
    apply G. intros i Hi. apply in_seq in Hi. lia. }
  rewrite E.
  destruct (for2_simple (dr A) (dc A) (fun i j M => let* a := gget A i j in gset M i j (match i with O => mul_2si a def | _ => a end))
     f C W ltac:(lia) Hc) as (C' & P & W' & D1 & D2 & E1 & _).
  { intros i j N Hi Hj _ _ _ _. rewrite gget_ok by lia. cbn [bind]. destruct i; reflexivity. }
  exists C'. do 4 (split; [assumption|]). exact E1.
Qed.

Lemma scale_ok C n d s : dwf C -> (n <= dr C)%nat -> (d <= dc C)%nat ->
  exists C', scale C n d s = Ok C' /\ dwf C' /\ dr C' = dr C /\ dc C' = dc C /\
    meq n d (ent C') (fun i j => mul_2si (ent C i j) s).
Proof.
  intros W Hr Hc. unfold scale.
  destruct (for2_simple n d (fun i j M => let* c := gget M i j in gset M i j (mul_2si c s))
     (fun i j => mul_2si (ent C i j) s) C W Hr Hc) as (C' & P & W' & D1 & D2 & E1 & _).
  { intros i j N Hi Hj WN R1 R2 EN. rewrite gget_ok by lia. cbn [bind]. now rewrite EN. }
  exists C'. do 4 (split; [assumption|]). exact E1.
Qed.

(** floor division by a power of two keeps the leading bits *)
Lemma floor_size_lower x t m : 0 <= t -> 1 <= m - t -> m <= sizeinbase2 x -> m - t <= sizeinbase2 (x / 2 ^ t).
Proof.
  intros Ht Hm Hs.
  destruct (Z.le_gt_cases (m - t) (sizeinbase2 (x / 2 ^ t))) as [|L]; [assumption|]. exfalso.
  assert (P : 0 < 2 ^ t) by (apply Z.pow_pos_nonneg; lia).
  assert (~ sizeinbase2 x <= m - 1) as N by lia. apply N.
  destruct (Z.eq_dec (m - 1) 0) as [E0|].
  { (* m = 1, t = 0 *) assert (t = 0) by lia. subst t. change (2 ^ 0) with 1 in L. rewrite Z.div_1_r in L. lia. }
  destruct (Z.eq_dec (m - t - 1) 0) as [E1|].
  - pose proof (sizeinbase2_pos (x / 2 ^ t)). lia.
  - apply sizeinbase2_lt; [lia|].
    assert (B : Z.abs (x / 2 ^ t) < 2 ^ (m - t - 1)) by (apply sizeinbase2_lt; lia).
    replace (m - 1) with ((m - t - 1) + t) by lia. rewrite Z.pow_add_r by lia.
    pose proof (Z.div_mod x (2 ^ t) ltac:(lia)). pose proof (Z.mod_pos_bound x (2 ^ t) P). nia.
Qed.

Lemma floor_range x t m : 0 <= t -> 0 < m - t -> sizeinbase2 x <= m -> - 2 ^ (m - t) <= x / 2 ^ t < 2 ^ (m - t).
Proof.
  intros Ht Hm Hs. apply sizeinbase2_lt in Hs; [|lia].
  assert (P : 0 < 2 ^ t) by (apply Z.pow_pos_nonneg; lia).
  assert (E : 2 ^ m = 2 ^ (m - t) * 2 ^ t) by (rewrite <- Z.pow_add_r by lia; f_equal; lia).
  split; [apply Z.div_le_lower_bound; nia|apply Z.div_lt_upper_bound; nia].
Qed.

Lemma min_max n d L a b : (0 < d)%nat -> min_colsize n d L a -> max_size n d L b -> a <= b.
Proof.
  intros Hd (H & _) (H' & _). destruct (H 0%nat Hd) as (i & Hi & E). specialize (H' i 0%nat Hi Hd). lia.
Qed.

Lemma min_colsize_ext n d L L' m : meq n d L L' -> min_colsize n d L m -> min_colsize n d L' m.
Proof.
  intros E (H1 & j & Hj & H2). split.
  - intros k Hk. destruct (H1 k Hk) as (i & Hi & X). exists i. split; [assumption|]. now rewrite <- E.
  - exists j. split; [assumption|]. intros i Hi. rewrite <- E by assumption. auto.
Qed.
Lemma max_size_ext n d L L' m : meq n d L L' -> max_size n d L m -> max_size n d L' m.
Proof.
  intros E (H1 & i & j & Hi & Hj & H2). split.
  - intros r k Hr Hk. rewrite <- E by assumption. auto.
  - exists i, j. do 2 (split; [assumption|]). now rewrite <- E.
Qed.

(** number of low bits dropped *)
Definition dropped (bits mmin : Z) : Z := if 0 <? bits then Z.max 0 (mmin - 2 - bits) else 0.

Lemma lift_truncate_ok C A def bits : dwf C -> (0 < dr A <= dr C)%nat -> (0 < dc A <= dc C)%nat ->
  exists C' mmin, lift_truncate C A def bits = Ok C' /\ dr C' = dr C /\ dc C' = dc C /\ dwf C' /\
    min_colsize (dr A) (dc A) (lifted (ent A) def) mmin /\
    (forall i j, (i < dr A)%nat -> (j < dc A)%nat ->
       ent C' i j = lifted (ent A) def i j / 2 ^ dropped bits mmin) /\
    (0 < dropped bits mmin -> forall j, (j < dc A)%nat -> exists i, (i < dr A)%nat /\ bits + 2 <= sizeinbase2 (ent C' i j)).
Proof.
  intros W Hr Hc. unfold lift_truncate.
  destruct (lift_rows_ok C A def W Hr) as (C1 & E1 & W1 & R1 & K1 & M1); [lia|]. rewrite E1. cbn [bind].
  destruct (min_bits_ok C1 (dr A) (dc A)) as (mmin & Em & Hm); [lia|lia|].
  pose proof (min_colsize_ext _ _ _ _ _ M1 Hm) as Hm'.
  unfold dropped. destruct (Z.ltb_spec 0 bits) as [Hb|Hb].
  - rewrite Em. cbn [bind]. destruct (Z.leb_spec bits (mmin - 2)) as [L|L].
    + destruct (scale_ok C1 (dr A) (dc A) (bits - mmin + 2) W1 ltac:(lia) ltac:(lia)) as (C2 & E2 & W2 & R2 & K2 & M2).
      rewrite E2. exists C2, mmin. split; [reflexivity|]. do 2 (split; [congruence|]). split; [assumption|]. split; [exact Hm'|].
      assert (V : forall i j, (i < dr A)%nat -> (j < dc A)%nat -> ent C2 i j = lifted (ent A) def i j / 2 ^ Z.max 0 (mmin - 2 - bits)).
      { intros i j Hi Hj. rewrite M2, M1 by assumption. unfold mul_2si.
        destruct (Z.leb_spec 0 (bits - mmin + 2)) as [L'|L'].
        - assert (bits - mmin + 2 = 0) as -> by lia. assert (mmin - 2 - bits = 0) as -> by lia.
          change (2 ^ Z.max 0 0) with 1. rewrite Z.div_1_r. lia.
        - f_equal. f_equal. lia. }
      split; [exact V|]. intros _ j Hj. destruct Hm' as (Hm1 & _). destruct (Hm1 j Hj) as (i & Hi & Hs).
      exists i. split; [assumption|]. rewrite V by assumption.
      replace (bits + 2) with (mmin - Z.max 0 (mmin - 2 - bits)) by lia. apply floor_size_lower; lia.
    + exists C1, mmin. split; [reflexivity|]. do 2 (split; [congruence|]). split; [assumption|]. split; [exact Hm'|].
      rewrite Z.max_l by lia. split; [|lia]. intros i j Hi Hj. rewrite M1 by assumption. now rewrite Z.div_1_r.
  - exists C1, mmin. split; [reflexivity|]. do 2 (split; [congruence|]). split; [assumption|]. split; [exact Hm'|].
    split; [|lia]. intros i j Hi Hj. rewrite M1 by assumption. now rewrite Z.div_1_r.
Qed.

(** common part of the machine-integer versions *)
Lemma lt_common A def bits : (0 < dr A)%nat -> (0 < dc A)%nat ->
  exists C1 mmin mmax, lift_rows (resize0 (dr A) (dc A)) A def = Ok C1 /\
    min_bits C1 (dr A) (dc A) = Ok mmin /\ max_bits C1 (dr A) (dc A) = Ok mmax /\
    min_colsize (dr A) (dc A) (lifted (ent A) def) mmin /\ max_size (dr A) (dc A) (lifted (ent A) def) mmax /\
    meq (dr A) (dc A) (ent C1) (lifted (ent A) def) /\ dr C1 = dr A /\ dc C1 = dc A /\
    (bits < mmin - 2 -> 0 < bits -> exists C2 r, scale C1 (dr A) (dc A) (bits - mmin + 2) = Ok C2 /\
       remains_down C2 (dr A) (dc A) = Ok r /\ dr C2 = dr A /\ dc C2 = dc A /\
       forall i j, (i < dr A)%nat -> (j < dc A)%nat -> ent C2 i j = lifted (ent A) def i j / 2 ^ dropped bits mmin).
Proof.
  intros Hr Hc.
  destruct (lift_rows_ok (resize0 (dr A) (dc A)) A def (resize0_wf _ _)) as (C1 & E1 & W1 & R1 & K1 & M1);
    [cbn [dr resize0]; lia|cbn [dc resize0]; lia|]. cbn [dr dc resize0] in R1, K1.
  destruct (min_bits_ok C1 (dr A) (dc A)) as (mmin & Em & Hm); [lia|lia|].
  destruct (max_bits_ok C1 (dr A) (dc A)) as (mmax & Ex & Hx); [lia|lia|].
  exists C1, mmin, mmax. do 3 (split; [assumption|]).
  split; [eapply min_colsize_ext; eassumption|]. split; [eapply max_size_ext; eassumption|].
  do 3 (split; [assumption|]). intros L Hb.
  destruct (scale_ok C1 (dr A) (dc A) (bits - mmin + 2) W1 ltac:(lia) ltac:(lia)) as (C2 & E2 & W2 & R2 & K2 & M2).
  destruct (remains_down_ok C2 (dr A) (dc A)) as (r & Er); [lia|lia|].
  exists C2, r. do 2 (split; [assumption|]). do 2 (split; [congruence|]).
  intros i j Hi Hj. rewrite M2, M1 by assumption. unfold mul_2si, dropped.
  destruct (Z.ltb_spec 0 bits); [|lia]. destruct (Z.leb_spec 0 (bits - mmin + 2)); [lia|].
  f_equal. f_equal. lia.
Qed.

Lemma conv_loop_ok (conv : Z -> Z) Cout C2 n d : dwf Cout -> (n <= dr C2)%nat -> (d <= dc C2)%nat -> (n <= dr Cout)%nat -> (d <= dc Cout)%nat ->
  exists Co, for2 n d (fun i j M => let* c := gget C2 i j in gset M i j (conv c)) Cout = Ok Co /\ dr Co = dr Cout /\ dc Co = dc Cout /\
    forall i j, (i < n)%nat -> (j < d)%nat -> ent Co i j = conv (ent C2 i j).
Proof.
  intros W H1 H2 H3 H4.
  destruct (for2_simple n d (fun i j M => let* c := gget C2 i j in gset M i j (conv c)) (fun i j => conv (ent C2 i j)) Cout W H3 H4)
    as (Co & P & W' & D1 & D2 & E1 & _).
  { intros i j N Hi Hj WN R1 R2 EN. rewrite gget_ok by lia. reflexivity. }
  exists Co. do 3 (split; [assumption|]). exact E1.
Qed.

Lemma lift_truncate_long_ok Cout A def bits : dwf Cout -> (0 < dr A <= dr Cout)%nat -> (0 < dc A <= dc Cout)%nat ->
  exists Co warn mmin mmax, lift_truncate_long Cout A def bits = Ok (Co, warn) /\
    min_colsize (dr A) (dc A) (lifted (ent A) def) mmin /\ max_size (dr A) (dc A) (lifted (ent A) def) mmax /\
    (forall i j, (i < dr A)%nat -> (j < dc A)%nat ->
       ent Co i j = get_si (lifted (ent A) def i j / 2 ^ dropped bits mmin)) /\
    (warn = true <-> 0 < dropped bits mmin /\ 63 < mmax - dropped bits mmin).
Proof.
  intros W Hr Hc. destruct (lt_common A def bits) as (C1 & mmin & mmax & E1 & Em & Ex & Hm & Hx & M1 & R1 & K1 & S2); [lia|lia|].
  unfold lift_truncate_long. rewrite E1. cbn [bind].
  assert (D0 : bits <= 0 \/ mmin - 2 <= bits -> dropped bits mmin = 0).
  { unfold dropped. intros [L|L]; [destruct (Z.ltb_spec 0 bits); lia|destruct (Z.ltb_spec 0 bits); lia]. }
  assert (NT : bits <= 0 \/ mmin - 2 <= bits -> forall b : bool, b = false ->
    exists Co, for2 (dr A) (dc A) (fun i j M => let* c := gget C1 i j in gset M i j (get_si c)) Cout = Ok Co /\
    (forall i j, (i < dr A)%nat -> (j < dc A)%nat ->
       ent Co i j = get_si (lifted (ent A) def i j / 2 ^ dropped bits mmin)) /\
    (b = true <-> 0 < dropped bits mmin /\ 63 < mmax - dropped bits mmin)).
  { intros L b ->. destruct (conv_loop_ok get_si Cout C1 (dr A) (dc A) W) as (Co & P & _ & _ & V); try lia.
    exists Co. split; [exact P|]. rewrite (D0 L). split; [|split; [discriminate|lia]].
    intros i j Hi Hj. rewrite V, M1 by assumption. now rewrite Z.div_1_r. }
  destruct (Z.ltb_spec 0 bits) as [Hb|Hb].
  - rewrite Em, Ex. cbn [bind]. destruct (Z.ltb_spec bits (mmin - 2)) as [L|L].
    + destruct (S2 L Hb) as (C2 & r & E2 & Er & R2 & K2 & V2). rewrite E2. cbn [bind]. rewrite Er. cbn [bind].
      destruct (conv_loop_ok get_si Cout C2 (dr A) (dc A) W) as (Co & P & _ & _ & V); try lia.
      rewrite P. cbn [bind]. exists Co, (63 <? mmax + (bits - mmin + 2)), mmin, mmax. split; [reflexivity|].
      do 2 (split; [assumption|]). split.
      * intros i j Hi Hj. rewrite V, V2 by assumption. reflexivity.
      * rewrite Z.ltb_lt. unfold dropped. destruct (Z.ltb_spec 0 bits); lia.
    + destruct (NT ltac:(lia) false eq_refl) as (Co & P & V & Q). cbn [bind]. rewrite P. cbn [bind].
      exists Co, false, mmin, mmax. auto.
  - destruct (NT ltac:(lia) false eq_refl) as (Co & P & V & Q). cbn [bind]. rewrite P. cbn [bind].
    exists Co, false, mmin, mmax. auto.
Qed.

Lemma lift_truncate_128_ok Cout A def bits : dwf Cout -> (0 < dr A <= dr Cout)%nat -> (0 < dc A <= dc Cout)%nat ->
  exists mmin mmax, 
    min_colsize (dr A) (dc A) (lifted (ent A) def) mmin /\ max_size (dr A) (dc A) (lifted (ent A) def) mmax /\
    ((0 < bits /\ 127 < mmax - dropped bits mmin /\ lift_truncate_128 Cout A def bits = Ok None) \/
     ((bits <= 0 \/ mmax - dropped bits mmin <= 127) /\ exists Co, lift_truncate_128 Cout A def bits = Ok (Some Co) /\
        forall i j, (i < dr A)%nat -> (j < dc A)%nat ->
          ent Co i j = mpz_set_128int (lifted (ent A) def i j / 2 ^ dropped bits mmin))).
Proof.
  intros W Hr Hc. destruct (lt_common A def bits) as (C1 & mmin & mmax & E1 & Em & Ex & Hm & Hx & M1 & R1 & K1 & S2); [lia|lia|].
  exists mmin, mmax. do 2 (split; [assumption|]).
  unfold lift_truncate_128. rewrite E1. cbn [bind].
  assert (D0 : bits <= 0 \/ mmin - 2 <= bits -> dropped bits mmin = 0).
  { unfold dropped. intros [L|L]; [destruct (Z.ltb_spec 0 bits); lia|destruct (Z.ltb_spec 0 bits); lia]. }
  assert (NT : bits <= 0 \/ mmin - 2 <= bits ->
    exists Co, for2 (dr A) (dc A) (fun i j M => let* c := gget C1 i j in gset M i j (mpz_set_128int c)) Cout = Ok Co /\
    (forall i j, (i < dr A)%nat -> (j < dc A)%nat ->
       ent Co i j = mpz_set_128int (lifted (ent A) def i j / 2 ^ dropped bits mmin))).
  { intros L. destruct (conv_loop_ok mpz_set_128int Cout C1 (dr A) (dc A) W) as (Co & P & _ & _ & V); try lia.
    exists Co. split; [exact P|]. rewrite (D0 L).
    intros i j Hi Hj. rewrite V, M1 by assumption. now rewrite Z.div_1_r. }
  destruct (Z.ltb_spec 0 bits) as [Hb|Hb].
  - rewrite Em, Ex. cbn [bind]. destruct (Z.ltb_spec bits (mmin - 2)) as [L|L].
    + destruct (S2 L Hb) as (C2 & r & E2 & Er & R2 & K2 & V2). rewrite E2. cbn [bind]. rewrite Er. cbn [bind].
      assert (Dd : dropped bits mmin = mmin - 2 - bits) by (unfold dropped; destruct (Z.ltb_spec 0 bits); lia).
      destruct (Z.ltb_spec 127 (mmax + (bits - mmin + 2))).
      * left. split; [assumption|]. split; [lia|reflexivity].
      * right. split; [lia|]. destruct (conv_loop_ok mpz_set_128int Cout C2 (dr A) (dc A) W) as (Co & P & _ & _ & V); try lia.
        rewrite P. cbn [bind]. exists Co. split; [reflexivity|].
        intros i j Hi Hj. rewrite V, V2 by assumption. reflexivity.
    + cbn [bind]. rewrite (D0 ltac:(lia)) in *. destruct (Z.ltb_spec 127 mmax).
      * left. split; [assumption|]. split; [lia|reflexivity].
      * right. split; [lia|]. destruct (NT ltac:(lia)) as (Co & P & V). rewrite P. cbn [bind]. eauto.
  - right. split; [now left|]. destruct (NT ltac:(lia)) as (Co & P & V). cbn [bind]. rewrite P. cbn [bind]. eauto.
Qed.
