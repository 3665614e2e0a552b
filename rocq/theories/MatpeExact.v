(** * MatrixPE with exact mantissas computes what the plain class computes

    [tlaws]: the mantissas are real numbers computed without rounding, the exponents
    never overflow, and normalisation keeps values.  Then every operation of matpe.h
    satisfies the laws of Sim.v for the entries [M[j][i] * 2^exp[j]]. *)
From Coq Require Import ZArith Reals Lia Lra List Bool Arith.
From Flocq Require Import Core.Core.
From Verif Require Import Base Spec Mat FP Hlll HlllM Safety Exact Matpe Sim Plain.
Import ListNotations.
Local Open Scope R_scope.

Notation b2 := (bpow radix2).

Record tlaws {T G : Type} (tp : tops T G) (tv : T -> R) (v : G -> R) : Prop := {
  x_0 : tv (t_0 tp) = 0;
  x_add : forall a b, tv (t_add tp a b) = tv a + tv b;
  x_sub : forall a b, tv (t_sub tp a b) = tv a - tv b;
  x_mul : forall a b, tv (t_mul tp a b) = tv a * tv b;
  x_inv : forall a, tv (t_inv tp a) = / tv a;
  x_ldexp : forall a e, tv (t_ldexp tp a e) = tv a * b2 e;
  x_pow2 : forall e, tv (t_pow2 tp e) = b2 e;
  x_is0 : forall a, t_is0 tp a = true -> tv a = 0;
  x_mk : forall m e, okp (fun x => v x = tv m * b2 e) (t_mk tp m e);
  x_raw : forall m e, v (t_raw tp m e) = tv m * b2 e;
  x_val : forall x, v x = tv (t_mant tp x) * b2 (t_exp tp x);
  x_sqrt : forall x, okp (fun y => v y = sqrt (v x)) (t_sqrt tp x);
  x_ofz : forall z, tv (fst (t_ofz tp z)) * b2 (snd (t_ofz tp z)) = IZR z;
  x_int : forall z, t_int tp z = Ok z }.

Lemma b2_add a b : b2 a * b2 b = b2 (a + b).
Proof. symmetry. apply bpow_plus. Qed.
Lemma b2_opp a : b2 (- a) * b2 a = 1.
Proof. rewrite b2_add. replace (- a + a)%Z with 0%Z by lia. reflexivity. Qed.
Lemma Rinv_b2 x e : / (x * b2 e) = / x * b2 (- e).
Proof.
  rewrite bpow_opp. apply Rinv_mult.
Qed.

Section PEX.
Context {T G : Type} (fp : fpops R) (so : sops G) (tp : tops T G) (tv : T -> R) (v : G -> R) (n d : nat).
Hypothesis X : exact fp.
Hypothesis TL : tlaws tp tv v.

Definition pval (A : pe T) (i j : nat) : R := tv (row tp A j i) * b2 (ex A j).
Definition pwf (A : pe T) : Prop := wfm n d (pm A) /\ length (px A) = d.

Lemma wcol_wf A j f e : pwf A -> pwf (wcol n A j f e).
Proof.
  intros [W L]. split; cbn [wcol pm px].
  - apply wfm_lupd; [exact W|]. now rewrite map_length, seq_length.
  - now rewrite lupd_length.
Qed.
Lemma wcol_val A j f e i : pwf A -> (j < d)%nat -> (i < n)%nat -> pval (wcol n A j f e) i j = tv (f i) * b2 e.
Proof.
  intros [[L _] L2] Hj Hi. unfold pval, row, ex, wcol, mget. cbn [pm px].
  rewrite col_lupd_eq by lia. rewrite nth_map_seq by assumption. now rewrite nth_lupd_eq by lia.
Qed.
Lemma wcol_keeps A j f e : keeps pval n d j A (wcol n A j f e).
Proof.
  intros i j' _ _ N. unfold pval, row, ex, wcol, mget. cbn [pm px].
  rewrite col_lupd_neq by assumption. now rewrite nth_lupd_neq by assumption.
Qed.

Local Ltac bl := repeat (apply andb_true_iff; split); rewrite ?Nat.ltb_lt, ?Nat.leb_le, ?Z.ltb_lt; lia.
Local Ltac ifs := repeat match goal with
  | |- context [(?a <? ?b)%nat] => destruct (Nat.ltb_spec a b); try lia
  | |- context [(?a <=? ?b)%nat] => destruct (Nat.leb_spec a b); try lia end; cbn [andb].
Local Ltac col := eexists; split; [reflexivity|]; split; [now apply wcol_wf|]; split; [apply wcol_keeps|].
Local Ltac xs := rewrite ?(x_add _ _ _ TL), ?(x_sub _ _ _ TL), ?(x_mul _ _ _ TL), ?(x_ldexp _ _ _ TL), ?(x_pow2 _ _ _ TL), ?(x_0 _ _ _ TL), ?(x_inv _ _ _ TL).

Lemma fold_dot (p : nat -> R) : forall l a acc acc', tv acc = acc' ->
  forall (h : nat -> T), (forall i, tv (h i) = p i) ->
  tv (fold_left (fun s i => t_add tp s (h i)) (seq a l) acc) = fold_left (fun s i => s + p i) (seq a l) acc'.
Proof.
  induction l as [|l IH]; intros a acc acc' E h H; cbn [seq fold_left]; [exact E|].
  apply IH; [|exact H]. now rewrite (x_add _ _ _ TL), E, H.
Qed.
Lemma fold_scale (p : nat -> R) s : forall l a acc, fold_left (fun t i => t + p i) (seq a l) acc * s = fold_left (fun t i => t + p i * s) (seq a l) (acc * s).
Proof.
  induction l as [|l IH]; intros a acc; cbn [seq fold_left]; [reflexivity|]. rewrite IH. f_equal. ring.
Qed.
Lemma fold_ext (p q : nat -> R) : forall l a acc, (forall i, p i = q i) -> fold_left (fun t i => t + p i) (seq a l) acc = fold_left (fun t i => t + q i) (seq a l) acc.
Proof. induction l as [|l IH]; intros a acc H; cbn [seq fold_left]; [reflexivity|]. rewrite H. now apply IH. Qed.
Lemma spf_sum (a b : nat -> R) l : spf fp a b l = fold_left (fun t i => t + a i * b i) (seq 1 (l - 1)) (a 0%nat * b 0%nat).
Proof.
  unfold spf. rewrite (e_mul fp X). generalize (a 0%nat * b 0%nat) as acc. generalize (seq 1 (l - 1)) as is.
  induction is as [|i is IH]; intros acc; cbn [fold_left]; [reflexivity|]. now rewrite (e_addmul fp X), IH.
Qed.

(** one value: mantissas in column exponents *)
Lemma scaled x e e' : x * b2 (e - e') * b2 e' = x * b2 e.
Proof. rewrite Rmult_assoc, b2_add. do 2 f_equal. lia. Qed.

Lemma setcolf_list (tt : list G) e :
  mfold (fun x l => let* y := t_int tp (t_exp tp x - e) in Ok (l ++ [(t_mant tp x, y)])) tt []
  = Ok (map (fun x => (t_mant tp x, (t_exp tp x - e)%Z)) tt).
Proof.
  assert (H : forall l0, mfold (fun x l => let* y := t_int tp (t_exp tp x - e) in Ok (l ++ [(t_mant tp x, y)])) tt l0
     = Ok (l0 ++ map (fun x => (t_mant tp x, (t_exp tp x - e)%Z)) tt)).
  { induction tt as [|x tt IH]; intros l0; cbn [mfold map].
    - now rewrite app_nil_r.
    - rewrite (x_int _ _ _ TL). cbn [bind]. rewrite IH, <- app_assoc. reflexivity. }
  apply (H []).
Qed.

Theorem pe_mlaws : mlaws fp so (pe_ops tp n d) v pval pwf n d.
Proof.
  assert (NORM : forall V jv kv len old, (jv < d)%nat -> (1 <= len)%nat -> (kv + len <= n)%nat ->
     okv v (pe_norm2 tp n d V jv kv (Z.of_nat len) old) (spf fp (fun i => pval V (kv + i) jv) (fun i => pval V (kv + i) jv) len)).
  { intros V jv kv len old Hj Hl H1. unfold pe_norm2. rewrite guard_true by bl.
    destruct (Z.eqb_spec (Z.of_nat len) 0); [lia|]. rewrite Nat2Z.id. rewrite guard_true by bl.
    rewrite (x_int _ _ _ TL). cbn [bind].
    destruct (x_mk _ _ _ TL (fold_left (fun s i => t_add tp s (t_mul tp (row tp V jv (kv + i)) (row tp V jv (kv + i))))
                         (seq 1 (len - 1)) (t_mul tp (row tp V jv kv) (row tp V jv kv))) (2 * ex V jv)%Z) as (x & E & Vx).
    exists x. split; [exact E|]. rewrite Vx, spf_sum.
    rewrite (fold_dot (fun i => tv (row tp V jv (kv + i)) * tv (row tp V jv (kv + i))) _ _ _ (tv (row tp V jv kv) * tv (row tp V jv kv)))
      by (intros; apply (x_mul _ _ _ TL)).
    assert (E2 : forall x y, x * y * b2 (2 * ex V jv) = (x * b2 (ex V jv)) * (y * b2 (ex V jv))).
    { intros a b. replace (2 * ex V jv)%Z with (ex V jv + ex V jv)%Z by lia. rewrite bpow_plus. ring. }
    rewrite fold_scale, E2. unfold pval. rewrite Nat.add_0_r. apply fold_ext. intros i. apply E2. }
  split; unfold pe_ops; cbn [m_get m_getnn m_set m_set0 m_setcolz m_setcolf m_copycol m_dot m_norm2 m_norm m_fmasub m_div m_subcol m_addcol m_submulcol m_colswap].
  - intros A i j W Hi Hj. unfold pe_get. rewrite guard_true by bl. apply (x_mk _ _ _ TL).
  - intros A i j W Hi Hj. unfold pe_getnn. rewrite guard_true by bl. eexists. split; [reflexivity|]. apply (x_raw _ _ _ TL).
  - intros A i j x W Hi Hj. unfold pe_set. rewrite guard_true by bl. cbn zeta.
    destruct (t_is0 tp (t_mant tp x)) eqn:E0.
    + col. intros k Hk. rewrite wcol_val by assumption. destruct (k =? i)%nat; [|reflexivity].
      rewrite (x_val _ _ _ TL), (x_is0 _ _ _ TL _ E0). xs. ring.
    + rewrite (x_int _ _ _ TL). cbn [bind]. destruct (0 <=? _)%Z.
      * col. intros k Hk. rewrite wcol_val by assumption. destruct (k =? i)%nat; [now rewrite (x_val _ _ _ TL)|].
        xs. unfold pval. replace (- (t_exp tp x - ex A j))%Z with (ex A j - t_exp tp x)%Z by lia. apply scaled.
      * col. intros k Hk. rewrite wcol_val by assumption. destruct (k =? i)%nat; [|reflexivity].
        rewrite (x_val _ _ _ TL). xs. apply scaled.
  - intros A i j W Hi Hj. unfold pe_set0. rewrite guard_true by bl. col. intros k Hk. rewrite wcol_val by assumption.
    destruct (k =? i)%nat; [|reflexivity]. xs. rewrite (e_zero fp X). ring.
  - intros A j b l W Hj Hl. unfold pe_setcolz. destruct (Nat.eqb_spec l 0); [lia|]. rewrite guard_true by bl. cbn zeta.
    rewrite (x_int _ _ _ TL). cbn [bind]. col. split.
    + intros i Hi. rewrite wcol_val by (assumption || lia). ifs.
      pose proof (x_ofz _ _ _ TL (nth i b 0%Z)) as Z1. destruct (t_ofz tp (nth i b 0%Z)) as [y x]. cbn [fst snd] in Z1.
      xs. rewrite (e_setz fp X), <- Z1. apply scaled.
    + intros i Hi E. rewrite wcol_val by (assumption || lia). ifs. rewrite (e_zero fp X) in *. unfold pval in E.
      apply Rmult_integral in E as [E|E]; [rewrite E; ring|]. pose proof (bpow_gt_0 radix2 (ex A j)). lra.
  - intros A j t l W Hj Hl Ht. unfold pe_setcolf. destruct (Nat.eqb_spec l 0); [lia|]. rewrite guard_true by bl. cbn zeta.
    rewrite setcolf_list. cbn [bind]. col. intros i Hi. rewrite wcol_val by (assumption || lia).
    rewrite nth_error_map. rewrite (nth_error_nth' (firstn l t) (s_zero so)) by (rewrite firstn_length; lia). cbn [option_map].
    xs. rewrite scaled, (x_val _ _ _ TL).
    replace (nth i (firstn l t) (s_zero so)) with (nth i t (s_zero so)); [reflexivity|].
    rewrite <- (firstn_skipn l t) at 1. apply app_nth1. rewrite firstn_length. lia.
  - intros A j Wm jw l W W2 Hj Hjw Hl. unfold pe_copycol. destruct (Nat.eqb_spec l 0); [lia|]. rewrite guard_true by bl.
    col. intros i Hi. rewrite wcol_val by (assumption || lia). ifs. reflexivity.
  - intros V jv kv W jw kw len old W1 W2 Hj Hjw Hl H1 H2. unfold pe_dot. rewrite guard_true by bl.
    destruct (Z.eqb_spec (Z.of_nat len) 0); [lia|]. rewrite Nat2Z.id. rewrite guard_true by bl.
    rewrite (x_int _ _ _ TL). cbn [bind].
    destruct (x_mk _ _ _ TL (fold_left (fun s i => t_add tp s (t_mul tp (row tp V jv (kv + i)) (row tp W jw (kw + i))))
                         (seq 0 len) (t_0 tp)) (ex V jv + ex W jw)%Z) as (x & E & Vx).
    exists x. split; [exact E|]. rewrite Vx, spf_sum.
    rewrite (fold_dot (fun i => tv (row tp V jv (kv + i)) * tv (row tp W jw (kw + i))) _ _ _ 0)
      by (intros; apply (x_mul _ _ _ TL) || apply (x_0 _ _ _ TL)).
    assert (E2 : forall x y, x * y * b2 (ex V jv + ex W jw) = (x * b2 (ex V jv)) * (y * b2 (ex W jw))).
    { intros a b. rewrite bpow_plus. ring. }
    destruct len as [|len]; [lia|]. cbn [seq fold_left]. rewrite Nat.sub_succ, Nat.sub_0_r, Rplus_0_l.
    rewrite fold_scale, E2. unfold pval. apply fold_ext. intros i. apply E2.
  - intros. now apply NORM.
  - intros V jv kv len old W Hj Hl H1. unfold pe_norm. destruct (NORM V jv kv len old Hj Hl H1) as (q & -> & Vq). cbn [bind].
    destruct (Z.eqb_spec (Z.of_nat len) 0); [lia|]. destruct (x_sqrt _ _ _ TL q) as (y & -> & Vy).
    exists y. split; [reflexivity|]. now rewrite Vy, Vq, (e_sqrt fp X).
  - intros A j k Wm jw kw Zm jz kz a l W W2 W3 Hj Hjw Hjz Hl H1 H2 H3. unfold pe_fmasub. rewrite guard_true by bl.
    destruct (Nat.eqb_spec l 0); [lia|]. rewrite guard_true by bl. cbn zeta. destruct (t_is0 tp (t_mant tp a)) eqn:E0.
    + col. intros i Hi. rewrite wcol_val by (assumption || lia). ifs. replace (k + i - k)%nat with i by lia.
      rewrite (e_submul fp X), (x_val _ _ _ TL a), (x_is0 _ _ _ TL _ E0). unfold pval. ring.
    + rewrite !(x_int _ _ _ TL). cbn [bind]. rewrite (x_int _ _ _ TL). cbn [bind]. destruct (0 <=? _)%Z.
      * col. intros i Hi. rewrite wcol_val by (assumption || lia). ifs. replace (k + i - k)%nat with i by lia.
        xs. rewrite (e_submul fp X), (x_val _ _ _ TL a). unfold pval.
        replace (- (ex Wm jw - (t_exp tp a + ex Zm jz)))%Z with (t_exp tp a + ex Zm jz + - ex Wm jw)%Z by lia.
        rewrite !bpow_plus. pose proof (b2_opp (ex Wm jw)) as Q.
        replace ((tv (row tp Wm jw (kw + i)) - tv (t_mant tp a) * (b2 (t_exp tp a) * b2 (ex Zm jz) * b2 (- ex Wm jw)) * tv (row tp Zm jz (kz + i))) * b2 (ex Wm jw))
          with (tv (row tp Wm jw (kw + i)) * b2 (ex Wm jw) - tv (t_mant tp a) * (b2 (t_exp tp a) * b2 (ex Zm jz)) * tv (row tp Zm jz (kz + i)) * (b2 (- ex Wm jw) * b2 (ex Wm jw))) by ring.
        rewrite Q. ring.
      * col. intros i Hi. rewrite wcol_val by (assumption || lia). ifs. replace (k + i - k)%nat with i by lia.
        xs. rewrite (e_submul fp X), (x_val _ _ _ TL a). unfold pval.
        rewrite Rmult_minus_distr_r. f_equal.
        -- rewrite (Rmult_comm (b2 _)). apply scaled.
        -- rewrite bpow_plus. ring.
  - intros A j k Wm jw kw a len W W2 Hj Hjw H1 H2. unfold pe_div. rewrite guard_true by bl.
    destruct (Z.eqb_spec (Z.of_nat len) 0) as [E0|E0].
    + exists A. split; [reflexivity|]. split; [exact W|]. split; [intros ? ? ? ? ?; reflexivity|]. intros i Hi. lia.
    + rewrite Nat2Z.id. rewrite guard_true by bl. rewrite (x_int _ _ _ TL). cbn [bind]. cbn zeta.
      col. intros i Hi. rewrite wcol_val by (assumption || lia). ifs. replace (k + i - k)%nat with i by lia.
      xs. rewrite (e_div fp X), (x_val _ _ _ TL a). unfold pval, Rdiv. rewrite Rinv_b2. unfold Zminus. rewrite bpow_plus. ring.
  - intros A j k l W Hj Hk N Hl. unfold pe_subcol, pe_addsub. destruct (Nat.eqb_spec l 0) as [E0|E0].
    { exists A. split; [reflexivity|]. split; [exact W|]. split; [intros ? ? ? ? ?; reflexivity|]. intros i Hi. lia. }
    rewrite guard_true by bl. rewrite (x_int _ _ _ TL). cbn [bind]. destruct (0 <=? _)%Z; col; intros i Hi;
      rewrite wcol_val by (assumption || lia); ifs; xs; rewrite (e_sub fp X); unfold pval; rewrite Rmult_minus_distr_r; f_equal.
    + replace (- (ex A j - ex A k))%Z with (ex A k - ex A j)%Z by lia. apply scaled.
    + apply scaled.
  - intros A j k l W Hj Hk N Hl. unfold pe_addcol, pe_addsub. destruct (Nat.eqb_spec l 0) as [E0|E0].
    { exists A. split; [reflexivity|]. split; [exact W|]. split; [intros ? ? ? ? ?; reflexivity|]. intros i Hi. lia. }
    rewrite guard_true by bl. rewrite (x_int _ _ _ TL). cbn [bind]. destruct (0 <=? _)%Z; col; intros i Hi;
      rewrite wcol_val by (assumption || lia); ifs; xs; rewrite (e_add fp X); unfold pval; rewrite Rmult_plus_distr_r; f_equal.
    + replace (- (ex A j - ex A k))%Z with (ex A k - ex A j)%Z by lia. apply scaled.
    + apply scaled.
  - intros A j k a l W Hj Hk N Hl. unfold pe_submulcol. destruct (Nat.eqb_spec l 0) as [E0|E0].
    { exists A. split; [reflexivity|]. split; [exact W|]. split; [intros ? ? ? ? ?; reflexivity|]. intros i Hi. lia. }
    rewrite guard_true by bl. rewrite (x_int _ _ _ TL). cbn [bind]. rewrite (x_int _ _ _ TL). cbn [bind]. cbn zeta.
    destruct (0 <=? _)%Z; col; intros i Hi; rewrite wcol_val by (assumption || lia); ifs; xs;
      rewrite (e_submul fp X), (x_val _ _ _ TL a); unfold pval; rewrite Rmult_minus_distr_r; f_equal.
    + replace (- (ex A j - (t_exp tp a + ex A k)))%Z with (t_exp tp a + ex A k + - ex A j)%Z by lia.
      rewrite !bpow_plus. pose proof (b2_opp (ex A j)) as Q.
      replace (tv (t_mant tp a) * (b2 (t_exp tp a) * b2 (ex A k) * b2 (- ex A j)) * tv (row tp A k i) * b2 (ex A j))
        with (tv (t_mant tp a) * (b2 (t_exp tp a) * b2 (ex A k)) * tv (row tp A k i) * (b2 (- ex A j) * b2 (ex A j))) by ring.
      rewrite Q. ring.
    + apply scaled.
    + rewrite bpow_plus. ring.
  - intros A j k W Hj Hk. unfold pe_colswap. rewrite guard_true by bl. eexists. split; [reflexivity|]. destruct W as [W L]. split.
    + split; cbn [pm px]; [now apply wfm_colswap|]. now rewrite !lupd_length.
    + intros i c Hi Hc. unfold pval, row, mget. cbn [pm]. rewrite (col_colswap n d) by assumption. f_equal. f_equal.
      unfold ex. cbn [px]. destruct (Nat.eqb_spec c j) as [->|N1]; [now rewrite nth_lupd_eq by (rewrite lupd_length; lia)|].
      rewrite nth_lupd_neq by assumption. destruct (Nat.eqb_spec c k) as [->|N2]; [now rewrite nth_lupd_eq by lia|].
      now rewrite nth_lupd_neq by assumption.
Qed.
End PEX.
