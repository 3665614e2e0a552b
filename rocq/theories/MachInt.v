(** * Machine integers and their conversions: src/nr_Z_l128.h, mpz_get_si, matrix_cast

    [long] is 64 bits, [__int128_t] 128 bits, two's complement. *)
From Coq Require Import ZArith Lia List Bool Arith Ascii.
From Verif Require Import Base Spec Mat MatOps MatOpsFacts.
Import ListNotations.
Local Open Scope Z_scope.

(** reduction to the range of a signed two's complement integer of [b] bits *)
Definition wrap (b : Z) (x : Z) : Z := (x + 2 ^ (b - 1)) mod 2 ^ b - 2 ^ (b - 1).

(** GMP mpz_get_si: the low 63 bits of the absolute value, with the sign
    (GMP documentation: "the least significant part, with the same sign"; implementation
     [size > 0: vl & LONG_MAX; size < 0: -1 - ((vl - 1) & LONG_MAX)]) *)
Definition get_si (z : Z) : Z :=
  if 0 <? z then z mod 2 ^ 63 else if z <? 0 then -1 - (- z - 1) mod 2 ^ 63 else 0.
(** GMP mpz_get_ui *)
Definition get_ui (z : Z) : Z := Z.abs z mod 2 ^ 64.

(** mpz_set_128int, nr_Z_l128.h 18-30 *)
Definition mpz_set_128int (a : Z) : Z :=
  let ump := a / 2 ^ 64 in
  let lmp := a mod 2 ^ 64 in
  let r0 := get_si ump in
  let r1 := wrap 128 (r0 * 2 ^ 64) in
  wrap 128 (r1 + get_ui lmp).

(** mpz_get_128int, nr_Z_l128.h 34-47; the last argument is converted to unsigned long *)
Definition mpz_get_128int (r : Z) : Z :=
  let data := (r / 2 ^ 64) * 2 ^ 64 in
  let low := wrap 128 (r * 2 ^ 64) / 2 ^ 64 in
  data + low mod 2 ^ 64.

Definition int128 (z : Z) : Prop := - 2 ^ 127 <= z < 2 ^ 127.
Definition int64 (z : Z) : Prop := - 2 ^ 63 <= z < 2 ^ 63.

Lemma wrap_id b x : 0 < b -> - 2 ^ (b - 1) <= x < 2 ^ (b - 1) -> wrap b x = x.
Proof.
  intros Hb Hx. unfold wrap.
  assert (E : 2 ^ b = 2 * 2 ^ (b - 1)) by (rewrite <- Z.pow_succ_r by lia; f_equal; lia).
  rewrite Z.mod_small; lia.
Qed.
Lemma wrap_range b x : 0 < b -> - 2 ^ (b - 1) <= wrap b x < 2 ^ (b - 1).
Proof.
  intros Hb. unfold wrap.
  assert (E : 2 ^ b = 2 * 2 ^ (b - 1)) by (rewrite <- Z.pow_succ_r by lia; f_equal; lia).
  pose proof (Z.mod_pos_bound (x + 2 ^ (b - 1)) (2 ^ b) ltac:(apply Z.pow_pos_nonneg; lia)). lia.
Qed.
Lemma wrap_mod b x : 0 < b -> (wrap b x) mod 2 ^ b = x mod 2 ^ b.
Proof.
  intros Hb. unfold wrap. rewrite Zminus_mod, Zmod_mod, <- Zminus_mod. f_equal. lia.
Qed.

Lemma get_si_id z : int64 z -> get_si z = z.
Proof.
  unfold int64, get_si. intros H. destruct (Z.ltb_spec 0 z).
  - apply Z.mod_small. lia.
  - destruct (Z.ltb_spec z 0); [|lia]. rewrite Z.mod_small; lia.
Qed.
Lemma get_si_range z : int64 (get_si z).
Proof.
  unfold int64, get_si.
  pose proof (Z.mod_pos_bound z (2 ^ 63) ltac:(lia)). pose proof (Z.mod_pos_bound (- z - 1) (2 ^ 63) ltac:(lia)).
  destruct (0 <? z); [lia|]. destruct (z <? 0); lia.
Qed.
Lemma get_si_fix z : get_si z = z <-> int64 z.
Proof. split; [intros <-; apply get_si_range|apply get_si_id]. Qed.

Lemma set_128_formula z : mpz_set_128int z = get_si (z / 2 ^ 64) * 2 ^ 64 + z mod 2 ^ 64.
Proof.
  unfold mpz_set_128int, get_ui. pose proof (get_si_range (z / 2 ^ 64)) as G. unfold int64 in G.
  pose proof (Z.mod_pos_bound z (2 ^ 64) ltac:(lia)) as M.
  rewrite (Z.abs_eq (z mod 2 ^ 64)) by lia. rewrite (Z.mod_small (z mod 2 ^ 64)) by lia.
  rewrite (wrap_id 128 (get_si _ * _)).
  - apply wrap_id; [lia|]. change (2 ^ (128 - 1)) with (2 ^ 63 * 2 ^ 64). nia.
  - lia.
  - change (2 ^ (128 - 1)) with (2 ^ 63 * 2 ^ 64). nia.
Qed.

Lemma set_128_id z : int128 z -> mpz_set_128int z = z.
Proof.
  intros H. rewrite set_128_formula. unfold int128 in H.
  rewrite get_si_id.
  - pose proof (Z.div_mod z (2 ^ 64) ltac:(lia)). lia.
  - unfold int64. split.
    + apply Z.div_le_lower_bound; lia.
    + apply Z.div_lt_upper_bound; lia.
Qed.

Lemma set_128_range z : int128 (mpz_set_128int z).
Proof.
  rewrite set_128_formula. pose proof (get_si_range (z / 2 ^ 64)) as G. unfold int64 in G.
  pose proof (Z.mod_pos_bound z (2 ^ 64) ltac:(lia)) as M. unfold int128.
  change (2 ^ 127) with (2 ^ 63 * 2 ^ 64). nia.
Qed.

Lemma get_128_id r : int128 r -> mpz_get_128int r = r.
Proof.
  intros H. unfold mpz_get_128int.
  assert (E : (wrap 128 (r * 2 ^ 64) / 2 ^ 64) mod 2 ^ 64 = r mod 2 ^ 64).
  { unfold wrap. change (2 ^ (128 - 1)) with (2 ^ 63 * 2 ^ 64). change (2 ^ 128) with (2 ^ 64 * 2 ^ 64).
    rewrite <- Z.mul_add_distr_r. rewrite Z.mul_mod_distr_r by lia.
    rewrite <- Z.mul_sub_distr_r, Z.div_mul by lia.
    rewrite Zminus_mod, Zmod_mod, <- Zminus_mod. f_equal. lia. }
  rewrite E. pose proof (Z.div_mod r (2 ^ 64) ltac:(lia)). lia.
Qed.

(** ** operator<<, nr_Z_l128.h 475-501.
    [buffer + 127 - d] characters have been written; [Some n] of [n] remaining cells. *)
Definition digit_char (k : Z) : ascii := ascii_of_nat (48 + Z.to_nat k).
(** the do-while loop; [free] is [d - buffer], [out] the characters from [d] on;
    decrementing below the start of the buffer is UB.  [fuel] bounds the iterations;
    running out of it is reported as [NoFuel] and excluded by the theorems. *)
Fixpoint print_loop (fuel : nat) (tmp : Z) (free : nat) (out : list ascii) : res (nat * list ascii) :=
  match fuel with
  | O => NoFuel
  | S fuel =>
      match free with
      | O => UB
      | S free' =>
          let out' := digit_char (tmp mod 10) :: out in
          let tmp' := tmp / 10 in
          if tmp' =? 0 then Ok (free', out') else print_loop fuel tmp' free' out'
      end
  end.
(** [-value] is a signed negation: undefined on -2^127 *)
Definition print128 (value : Z) : res (list ascii) :=
  if value <? 0 then
    guard (negb (value =? - 2 ^ 127))
    (let* st := print_loop 200 (- value) 127 [] in
     match fst st with O => UB | S _ => Ok ("-"%char :: snd st) end)
  else
    let* st := print_loop 200 value 127 [] in Ok (snd st).

(** *** Specification of decimal notation *)
Definition is_digit (c : ascii) : Prop := (48 <= nat_of_ascii c < 58)%nat.
Definition digit_value (c : ascii) : Z := Z.of_nat (nat_of_ascii c) - 48.
Definition decimal_value (l : list ascii) : Z := fold_left (fun a c => 10 * a + digit_value c) l 0.
(** [l] is the decimal notation of [z >= 0]: digits, no leading zero *)
Definition decimal_nat (l : list ascii) (z : Z) : Prop :=
  l <> [] /\ Forall is_digit l /\ decimal_value l = z /\ (hd "0"%char l = "0"%char -> l = ["0"%char]).
Definition decimal (l : list ascii) (z : Z) : Prop :=
  if z <? 0 then exists l', l = "-"%char :: l' /\ decimal_nat l' (- z) else decimal_nat l z.

Lemma digit_char_ok k : 0 <= k < 10 -> is_digit (digit_char k) /\ digit_value (digit_char k) = k /\
  (digit_char k = "0"%char -> k = 0).
Proof.
  intros H. unfold is_digit, digit_value, digit_char. rewrite nat_ascii_embedding by lia.
  split; [lia|]. split; [lia|]. intros E.
  apply (f_equal nat_of_ascii) in E. rewrite nat_ascii_embedding in E by lia. cbn in E. lia.
Qed.

Lemma fold_dec l a : fold_left (fun a c => 10 * a + digit_value c) l a = a * 10 ^ Z.of_nat (length l) + decimal_value l.
Proof.
  unfold decimal_value. revert a. induction l as [|c l IH]; intros a; cbn [fold_left length]; [lia|].
  rewrite IH. rewrite (IH (10 * 0 + digit_value c)). rewrite Nat2Z.inj_succ, Z.pow_succ_r by lia. ring.
Qed.

Lemma print_loop_ok fuel : forall tmp free out k,
  0 <= tmp < 10 ^ Z.of_nat k -> (0 < k)%nat -> (k <= fuel)%nat -> (k <= free)%nat -> Forall is_digit out ->
  exists free' l, print_loop fuel tmp free out = Ok (free', l ++ out) /\ (free - k <= free')%nat /\ decimal_nat l tmp.
Proof.
  induction fuel as [|fuel IH]; intros tmp free out k Ht Hk Hf Hr Ho; [lia|].
  destruct free as [|free]; [lia|]. cbn [print_loop].
  assert (D : 0 <= tmp mod 10 < 10) by (apply Z.mod_pos_bound; lia).
  destruct (digit_char_ok (tmp mod 10) D) as (D1 & D2 & D3).
  pose proof (Z.div_mod tmp 10 ltac:(lia)) as E.
  destruct (Z.eqb_spec (tmp / 10) 0) as [Z0|NZ].
  - exists free, [digit_char (tmp mod 10)]. split; [reflexivity|]. split; [lia|].
    split; [discriminate|]. split; [constructor; [exact D1|constructor]|].
    split; [unfold decimal_value; cbn [fold_left]; lia|].
    cbn [hd]. intros X. now rewrite X.
  - destruct k as [|k]; [lia|].
    rewrite Nat2Z.inj_succ, Z.pow_succ_r in Ht by lia.
    assert (Hd : 0 <= tmp / 10 < 10 ^ Z.of_nat k).
    { split; [apply Z.div_pos; lia|]. apply Z.div_lt_upper_bound; lia. }
    assert (Hk0 : (0 < k)%nat) by (destruct k; [cbn in Hd; lia|lia]).
    destruct (IH (tmp / 10) free (digit_char (tmp mod 10) :: out) k Hd Hk0 ltac:(lia) ltac:(lia)) as (free' & l & P & Q & R).
    { constructor; assumption. }
    exists free', (l ++ [digit_char (tmp mod 10)]). rewrite <- app_assoc. split; [exact P|]. split; [lia|].
    destruct R as (R1 & R2 & R3 & R4). split; [destruct l; discriminate|]. split; [apply Forall_app; auto|].
    split.
    + unfold decimal_value in *. rewrite fold_left_app. cbn [fold_left]. rewrite R3. lia.
    + intros X. exfalso. destruct l as [|c l]; [contradiction|]. cbn [app hd] in X. specialize (R4 X).
      injection R4 as -> ->. change (decimal_value ["0"%char]) with 0 in R3. lia.
Qed.

Lemma print128_ok z : - 2 ^ 127 < z < 2 ^ 127 -> exists l, print128 z = Ok l /\ decimal l z.
Proof.
  intros H. unfold print128, decimal.
  assert (B : forall t, 0 <= t < 2 ^ 127 -> exists free' l, print_loop 200 t 127 [] = Ok (free', l) /\ (0 < free')%nat /\ decimal_nat l t).
  { intros t Ht. destruct (print_loop_ok 200 t 127 [] 39 ltac:(split; [lia|]; apply Z.lt_trans with (2 ^ 127); [lia|reflexivity])
       ltac:(lia) ltac:(lia) ltac:(lia) ltac:(constructor)) as (f & l & P & Q & R).
    rewrite app_nil_r in P. exists f, l. split; [exact P|]. split; [lia|exact R]. }
  destruct (Z.ltb_spec z 0).
  - destruct (Z.eqb_spec z (- 2 ^ 127)) as [E|E]; [lia|]. cbn [negb guard].
    destruct (B (- z) ltac:(lia)) as (f & l & P & Q & R). rewrite P. cbn [bind fst snd].
    destruct f; [lia|]. eexists. split; [reflexivity|]. eauto.
  - destruct (B z ltac:(lia)) as (f & l & P & Q & R). rewrite P. cbn [bind fst snd]. eauto.
Qed.

(** the notation of a number is unique *)
Lemma decimal_nat_nonneg l z : decimal_nat l z -> 0 <= z.
Proof.
  intros (_ & H & <- & _). unfold decimal_value.
  assert (G : forall l a, 0 <= a -> Forall is_digit l -> 0 <= fold_left (fun a c => 10 * a + digit_value c) l a).
  { induction l0 as [|c l0 IH]; intros a Ha Hf; cbn [fold_left]; [assumption|].
    inversion Hf as [|? ? Hc Hl]. subst. apply IH; [|assumption]. unfold is_digit, digit_value in *. lia. }
  apply G; [lia|assumption].
Qed.

(** ** bit sizes and matrix_cast *)
(** mpz_sizeinbase(z,2) *)
Definition sizeinbase2 (z : Z) : Z := if z =? 0 then 1 else Z.log2 (Z.abs z) + 1.

Lemma sizeinbase2_lt z b : 0 < b -> sizeinbase2 z <= b <-> Z.abs z < 2 ^ b.
Proof.
  intros Hb. unfold sizeinbase2. destruct (Z.eqb_spec z 0) as [->|N].
  - cbn. split; intros; [apply Z.pow_pos_nonneg; lia|lia].
  - split; intros H.
    + apply Z.log2_lt_cancel. rewrite Z.log2_pow2 by lia. lia.
    + apply Z.log2_lt_pow2 in H; lia.
Qed.
Lemma sizeinbase2_pos z : 1 <= sizeinbase2 z.
Proof. unfold sizeinbase2. destruct (z =? 0); [lia|]. pose proof (Z.log2_nonneg (Z.abs z)). lia. Qed.

(** maxbitsize(B), mat.h 2698-2711 and 2729-2743 *)
Definition maxbitsize (A : dmat) : res Z :=
  for2 (dr A) (dc A) (fun i j l => let* a := gget A i j in Ok (Z.max l (sizeinbase2 a))) 0.

Lemma maxbitsize_ok A : exists b : Z, maxbitsize A = Ok b /\ 0 <= b /\
  (forall i j, (i < dr A)%nat -> (j < dc A)%nat -> sizeinbase2 (ent A i j) <= b) /\
  (b = 0 \/ exists i j, (i < dr A)%nat /\ (j < dc A)%nat /\ b = sizeinbase2 (ent A i j)).
Proof.
  unfold maxbitsize, for2.
  assert (R : forall i n s, (i < dr A)%nat -> (n <= dc A)%nat -> 0 <= s -> exists b,
     for_ n (fun j l => let* a := gget A i j in Ok (Z.max l (sizeinbase2 a))) s = Ok b /\ s <= b /\
     (forall j, (j < n)%nat -> sizeinbase2 (ent A i j) <= b) /\
     (b = s \/ exists j, (j < n)%nat /\ b = sizeinbase2 (ent A i j))).
  { intros i n s Hi. induction n as [|n IH]; intros Hn Hs.
    - exists s. repeat split; auto; try lia; intros; lia.
    - destruct IH as (b & P & Q & R & T); [lia|lia|]. unfold for_ in P |- *.
      rewrite seq_S, mfold_app, P. cbn [bind mfold Nat.add]. rewrite gget_ok by lia. cbn [bind].
      exists (Z.max b (sizeinbase2 (ent A i n))). split; [reflexivity|]. split; [lia|]. split.
      + intros j Hj. destruct (Nat.eq_dec j n) as [->|]; [lia|]. specialize (R j ltac:(lia)). lia.
      + destruct (Z.max_spec b (sizeinbase2 (ent A i n))) as [[? ->]|[? ->]].
        * right. exists n. split; [lia|reflexivity].
        * destruct T as [->|(j & ? & ->)]; [now left|]. right. exists j. split; [lia|reflexivity]. }
  assert (G : forall m, (m <= dr A)%nat -> exists b,
     for_ m (fun i => for_ (dc A) (fun j l => let* a := gget A i j in Ok (Z.max l (sizeinbase2 a)))) 0 = Ok b /\ 0 <= b /\
     (forall i j, (i < m)%nat -> (j < dc A)%nat -> sizeinbase2 (ent A i j) <= b) /\
     (b = 0 \/ exists i j, (i < m)%nat /\ (j < dc A)%nat /\ b = sizeinbase2 (ent A i j))).
  { induction m as [|m IH]; intros Hm.
    - exists 0. repeat split; auto; try lia; intros; lia.
    - destruct IH as (b & P & Q & S & T); [lia|]. unfold for_ at 1 in P. unfold for_ at 1.
      rewrite seq_S, mfold_app. rewrite P. cbn [bind mfold Nat.add].
      destruct (R m (dc A) b ltac:(lia) ltac:(lia) ltac:(lia)) as (b' & P' & Q' & R' & T').
      rewrite P'. cbn [bind]. exists b'. split; [reflexivity|]. split; [lia|]. split.
      + intros i j Hi Hj. destruct (Nat.eq_dec i m) as [->|]; [now apply R'|].
        specialize (S i j ltac:(lia) Hj). lia.
      + destruct T' as [->|(j & ? & ->)].
        * destruct T as [->|(i & j & ? & ? & ->)]; [now left|]. right. exists i, j. repeat split; auto; lia.
        * right. exists m, j. repeat split; auto; lia. }
  apply G. lia.
Qed.

(** matrix_cast to long, 2783-2803, 2888-2904; to __int128_t, 2819-2837, 2839-2856.
    The result is the matrix and whether the error message was printed. *)
Definition matrix_cast (conv : Z -> Z) (bits : Z) (A : dmat) : res (dmat * bool) :=
  let* mb := maxbitsize A in
  let* B := for2 (dr A) (dc A) (fun i j M => let* a := gget A i j in gset M i j (conv a)) (resize0 (dr A) (dc A)) in
  Ok (B, bits - 1 <? mb).

Lemma matrix_cast_ok conv bits A : 1 < bits -> exists B err, matrix_cast conv bits A = Ok (B, err) /\
  dr B = dr A /\ dc B = dc A /\ (forall i j, (i < dr A)%nat -> (j < dc A)%nat -> ent B i j = conv (ent A i j)) /\
  (err = false <-> forall i j, (i < dr A)%nat -> (j < dc A)%nat -> Z.abs (ent A i j) < 2 ^ (bits - 1)).
Proof.
  intros Hb. unfold matrix_cast. destruct (maxbitsize_ok A) as (b & P & Q & R & T). rewrite P. cbn [bind].
  destruct (for2_simple (dr A) (dc A) (fun i j M => let* a := gget A i j in gset M i j (conv a))
     (fun i j => conv (ent A i j)) (resize0 (dr A) (dc A))) as (B & E & W & D1 & D2 & E1 & E2).
  - apply resize0_wf.
  - cbn; lia.
  - cbn; lia.
  - intros i j N Hi Hj _ _ _ _. rewrite gget_ok by lia. reflexivity.
  - rewrite E. cbn [bind]. exists B, (bits - 1 <? b). split; [reflexivity|]. do 2 (split; [assumption|]).
    split; [exact E1|]. rewrite Z.ltb_ge. split.
    + intros L i j Hi Hj. apply sizeinbase2_lt; [lia|]. specialize (R i j Hi Hj). lia.
    + intros H. destruct T as [->|(i & j & Hi & Hj & ->)]; [lia|].
      apply sizeinbase2_lt; [lia|]. auto.
Qed.
