(** * C70, reading the values of the options: every decimal numeral, every word *)
From Coq Require Import ZArith Lia List Bool Arith String Ascii Decimal DecimalString DecimalZ DecimalFacts.
From Verif Require Import Base Program SpecProg PropProgram.
Import ListNotations.
Local Open Scope string_scope.
Local Open Scope Z_scope.

(** the decimal notation of an integer, from the standard library: 0, 12, -7 *)
Definition decimal (z : Z) : string := NilZero.string_of_int (Z.to_int z).

(** white space (isspace in the C locale) *)
Definition white (c : ascii) : Prop := In (nat_of_ascii c) [9; 10; 11; 12; 13; 32]%nat.
Definition all_white (s : string) : Prop := forall c, In c (list_ascii_of_string s) -> white c.
Definition is_digit_char (c : ascii) : Prop := In c ["0"; "1"; "2"; "3"; "4"; "5"; "6"; "7"; "8"; "9"]%char.
Definition no_digit_first (s : string) : Prop := match s with EmptyString => True | String c _ => ~ is_digit_char c end.

Lemma white_space c : white c <-> is_space c = true.
Proof.
  unfold white, is_space. cbn [In]. rewrite orb_true_iff, andb_true_iff, Nat.eqb_eq, !Nat.leb_le. lia.
Qed.
Lemma skip_white s t : all_white s -> skip_spaces (s ++ t) = skip_spaces t.
Proof.
  induction s as [|c s IH]; intros H; [reflexivity|]. cbn [append skip_spaces].
  assert (E : is_space c = true) by (apply white_space, H; now left). rewrite E. apply IH. intros x Hx. apply H. now right.
Qed.

Lemma digit_none c : ~ is_digit_char c -> digit c = None.
Proof.
  intros H. unfold digit. destruct ((48 <=? nat_of_ascii c) && (nat_of_ascii c <=? 57))%nat eqn:E; [|reflexivity].
  exfalso. apply H. apply andb_true_iff in E. destruct E as [E1 E2]. apply Nat.leb_le in E1, E2.
  rewrite <- (ascii_nat_embedding c). unfold is_digit_char.
  assert (K : In (nat_of_ascii c) (seq 48 10)) by (apply in_seq; lia). revert K. generalize (nat_of_ascii c). intros k K.
  cbn in K. repeat (destruct K as [<-|K]; [cbn; tauto|]). contradiction.
Qed.
Lemma digits_stop t a : no_digit_first t -> digits t a = a.
Proof. destruct t as [|c t]; [reflexivity|]. intros H. cbn [digits]. now rewrite digit_none. Qed.

Lemma digits_pos u t : no_digit_first t -> forall a, digits (NilEmpty.string_of_uint u ++ t) (Zpos a) = Zpos (Pos.of_uint_acc u a).
Proof.
  intros Ht. induction u as [|u IH|u IH|u IH|u IH|u IH|u IH|u IH|u IH|u IH|u IH]; intros a;
    [cbn; now rewrite digits_stop|..]; cbn [NilEmpty.string_of_uint append digits Pos.of_uint_acc];
  match goal with |- match digit ?c with _ => _ end = _ => let d := eval vm_compute in (digit c) in change (digit c) with d end; cbv iota;
  (match goal with |- digits _ ?e = _ => assert (P : exists p, e = Zpos p) by (exists (Z.to_pos e); rewrite Z2Pos.id; lia) end;
   destruct P as (p & P); rewrite P, IH; f_equal; f_equal; lia).
Qed.
Lemma digits_uint u t : no_digit_first t -> digits (NilEmpty.string_of_uint u ++ t) 0 = Z.of_uint u.
Proof.
  intros Ht. unfold Z.of_uint. induction u as [|u IH|u IH|u IH|u IH|u IH|u IH|u IH|u IH|u IH|u IH];
    [cbn; now rewrite digits_stop|..]; cbn [NilEmpty.string_of_uint append digits];
  match goal with |- match digit ?c with _ => _ end = _ => let d := eval vm_compute in (digit c) in change (digit c) with d end; cbv iota.
  - exact IH.
  - apply (digits_pos u t Ht 1%positive).
  - apply (digits_pos u t Ht 2%positive).
  - apply (digits_pos u t Ht 3%positive).
  - apply (digits_pos u t Ht 4%positive).
  - apply (digits_pos u t Ht 5%positive).
  - apply (digits_pos u t Ht 6%positive).
  - apply (digits_pos u t Ht 7%positive).
  - apply (digits_pos u t Ht 8%positive).
  - apply (digits_pos u t Ht 9%positive).
Qed.
Lemma digits_zero_uint u t : no_digit_first t -> digits (NilZero.string_of_uint u ++ t) 0 = Z.of_uint u.
Proof.
  intros Ht. destruct u; try now apply digits_uint. change (digits (String "0" t) 0 = 0). cbn [digits].
  change (digit "0") with (Some 0). cbv iota. now apply digits_stop.
Qed.
Lemma uint_first u : exists c r, NilZero.string_of_uint u = String c r /\ is_space c = false /\ nat_of_ascii c <> 45%nat /\ nat_of_ascii c <> 43%nat.
Proof. destruct u; cbn; (eexists; eexists; split; [reflexivity|]; split; [reflexivity|]; split; discriminate). Qed.

(** An int option given as white space, the decimal notation of z (with or without a + sign) and anything that does not go on with a digit
    reads z, or the nearest int when z is out of range. *)
Theorem C70_decimal_values : forall (z : Z) (before after : string), all_white before -> no_digit_first after ->
  rd_int (before ++ decimal z ++ after) = Some (Z.max (-2 ^ 31) (Z.min (2 ^ 31 - 1) z)) /\
  (0 <= z -> rd_int (before ++ "+" ++ decimal z ++ after) = Some (Z.min (2 ^ 31 - 1) z)) /\
  (all_white (before ++ after) -> rd_int (before ++ after) = None).
Proof.
  intros z before after Hb Ha. change (Z.max (-2 ^ 31) (Z.min (2 ^ 31 - 1) z)) with (clamp z). unfold rd_int.
  rewrite !(skip_white before) by assumption. split; [|split].
  - unfold decimal, NilZero.string_of_int. rewrite <- (DecimalZ.of_to z) at 2. destruct (Z.to_int z) as [u|u].
    + cbn [Z.of_int]. destruct (uint_first u) as (c & r & E & H1 & H2 & H3). rewrite <- (digits_zero_uint u after Ha), E.
      cbn [append skip_spaces]. rewrite H1. apply Nat.eqb_neq in H2, H3. now rewrite H2, H3.
    + cbn [append skip_spaces]. change (is_space "-") with false. cbv iota. change (nat_of_ascii "-" =? 45)%nat with true. cbv iota.
      cbn [Z.of_int]. now rewrite digits_zero_uint.
  - intros Hz. cbn [append skip_spaces]. change (is_space "+") with false. cbv iota.
    change (nat_of_ascii "+" =? 45)%nat with false. change (nat_of_ascii "+" =? 43)%nat with true. cbv iota.
    replace (Z.min (2 ^ 31 - 1) z) with (clamp z) by (unfold clamp, int_min, int_max; lia). do 2 f_equal.
    unfold decimal, NilZero.string_of_int. rewrite <- (DecimalZ.of_to z) at 2.
    assert (P : exists u, Z.to_int z = Pos u). { destruct z; cbn; eauto. lia. } destruct P as (u & ->). cbn [Z.of_int]. now apply digits_zero_uint.
  - intros Hw. assert (Hw' : all_white after). { intros c Hc. apply Hw. clear -Hc. induction before as [|x b IH]; cbn; auto. }
    assert (E : skip_spaces after = ""). { rewrite <- (append_nil_r after) at 1 || idtac. clear -Hw'. induction after as [|c s IH]; [reflexivity|]. cbn [skip_spaces].
      assert (E : is_space c = true) by (apply white_space, Hw'; now left). rewrite E. apply IH. intros x Hx. apply Hw'. now right. }
    now rewrite E.
Qed.

Lemma take_word_app w t : (forall c, In c (list_ascii_of_string w) -> ~ white c) ->
  match t with EmptyString => True | String c _ => white c end -> take_word (w ++ t) = w.
Proof.
  intros Hw Ht. induction w as [|c w IH].
  - destruct t as [|c t]; [reflexivity|]. cbn. apply white_space in Ht. now rewrite Ht.
  - cbn [append take_word]. destruct (is_space c) eqn:E; [exfalso; apply (Hw c); [now left|now apply white_space]|].
    f_equal. apply IH. intros x Hx. apply Hw. now right.
Qed.
(** a word option reads the first word *)
Theorem C70_word_values : forall (w before after : string), w <> "" -> all_white before ->
  (forall c, In c (list_ascii_of_string w) -> ~ white c) -> match after with EmptyString => True | String c _ => white c end ->
  rd_word (before ++ w ++ after) = Some w.
Proof.
  intros w before after Hne Hb Hw Ha. unfold rd_word. rewrite (skip_white before) by assumption.
  destruct w as [|c w]; [contradiction|]. cbn [append skip_spaces].
  destruct (is_space c) eqn:E; [exfalso; apply (Hw c); [now left|now apply white_space]|].
  change (String c (w ++ after)) with (String c w ++ after). now rewrite (take_word_app (String c w) after).
Qed.

(** a -type word of 8 characters or more, wherever it stands, overflows its buffer *)
Theorem C70_long_type : forall (D : Type) (e : env D) args ps v w o, reads args ps -> In ("-type", v) ps -> rd_word v = Some w ->
  (8 <= String.length w)%nat -> parse e args o = UB.
Proof.
  intros D e args ps v w o H. revert o. induction H as [|a v' rest ps Ha H IH|w' rest ps Hw H IH]; intros o Hin Hv Hl.
  - destruct Hin.
  - cbn [parse hd]. destruct (set_opt_some e a v' o Ha) as (r & E). rewrite E.
    assert (R : r = UB \/ exists o', r = Ok o').
    { clear -E. destruct o. unfold set_opt in E.
      repeat match type of E with context [String.eqb ?x ?b] => destruct (String.eqb x b) end; try discriminate E; try (injection E as <-; eauto; fail).
      injection E as <-. destruct (rd_word v'); [|eauto]. destruct (_ <? 8)%nat; cbn; eauto. }
    destruct Hin as [[= -> ->]|Hin].
    + clear R IH. destruct o. unfold set_opt in E. cbn [String.eqb Ascii.eqb Bool.eqb] in E. injection E as <-. rewrite Hv.
      apply Nat.ltb_ge in Hl. rewrite Hl. reflexivity.
    + destruct R as [-> |(o' & ->)]; [reflexivity|]. cbn [bind]. now apply IH.
  - cbn [parse]. rewrite set_opt_none by assumption. now apply IH.
Qed.

Example C70_long_type_case : reads ["x"; "-d"; "3"; "-type"; "identity"]%string [("-d", "3"); ("-type", "identity")]%string /\ rd_word "identity" = Some "identity"%string.
Proof.
  split; [|reflexivity]. apply reads_skip; [cbn; intuition discriminate|]. apply reads_pair; [cbn; tauto|]. apply reads_pair; [cbn; tauto|]. apply reads_nil.
Qed.
Example C70_numbers_case : rd_int "  -120x" = Some (-120) /\ decimal (-120) = "-120" /\ rd_int "99999999999" = Some 2147483647.
Proof. repeat split; reflexivity. Qed.

Print Assumptions C70_decimal_values.
Print Assumptions C70_word_values.
Print Assumptions C70_long_type.
