(** * Seysen's reduction of a column in exact arithmetic *)
From Coq Require Import ZArith Lia Reals Lra List Bool Arith.
From Verif Require Import Base Spec Mat FP Hlll IntSteps HlllInt Structure Object Safety SpecReal Fresh Cache Cache2 Cache4 Cache5 Exact HHMath
  ExactLoop ExactLoop2.
Import ListNotations.
Local Open Scope R_scope.

(** sum of f lo .. f (e-1) *)
Definition psum (e lo : nat) (f : nat -> R) : R := sumR e (fun j => if (lo <=? j)%nat then f j else 0).

Lemma psum_step e lo f : (lo < e)%nat -> psum e lo f = f lo + psum e (S lo) f.
Proof.
  intros H. unfold psum. rewrite (sumR_ext e (fun j => if (lo <=? j)%nat then f j else 0)
    (fun j => (if (j =? lo)%nat then f lo else 0) + (if (S lo <=? j)%nat then f j else 0))).
  - rewrite sumR_plus. f_equal. rewrite (sumR_single e lo); [now rewrite Nat.eqb_refl|exact H|].
    intros j _ N. apply Nat.eqb_neq in N. now rewrite N.
  - intros j Hj. destruct (Nat.leb_spec lo j), (Nat.eqb_spec j lo), (Nat.leb_spec (S lo) j); try lia; subst; ring.
Qed.

Lemma psum_end e lo f : (e <= lo)%nat -> psum e lo f = 0.
Proof. intros H. apply sumR_0. intros j Hj. now replace (lo <=? j)%nat with false by (symmetry; apply Nat.leb_gt; lia). Qed.

Lemma psum_ext e lo f g : (forall j, (lo <= j < e)%nat -> f j = g j) -> psum e lo f = psum e lo g.
Proof. intros H. apply sumR_ext. intros j Hj. destruct (Nat.leb_spec lo j); auto. Qed.

(** the block of rows a <= i < e of a column w is a combination of the columns of the block
    of rr, with coefficients at most 1/2 *)
Definition blockok (rr : nat -> nat -> R) (w : nat -> R) (a e : nat) : Prop :=
  exists y : nat -> R, (forall j, (a <= j < e)%nat -> Rabs (y j) <= / 2) /\
    forall i, (a <= i < e)%nat -> w i = psum e i (fun j => rr i j * y j).

Lemma blockok_ext rr w rr' w' a e : (forall i j, (a <= i <= j)%nat -> (j < e)%nat -> rr' i j = rr i j) ->
  (forall i, (a <= i < e)%nat -> w' i = w i) -> blockok rr w a e -> blockok rr' w' a e.
Proof.
  intros H1 H2 (y & Y1 & Y2). exists y. split; auto. intros i Hi. rewrite H2, Y2 by assumption.
  apply psum_ext. intros j Hj. now rewrite H1 by lia.
Qed.

(** a triangular system has one solution *)
Lemma solve_unique rr a e x y : (forall i, (a <= i < e)%nat -> rr i i <> 0) ->
  (forall i, (a <= i < e)%nat -> psum e i (fun j => rr i j * x j) = psum e i (fun j => rr i j * y j)) ->
  forall i, (a <= i < e)%nat -> x i = y i.
Proof.
  intros D H.
  assert (Q : forall k i, (a <= i < e)%nat -> (e - i <= k)%nat -> x i = y i).
  { induction k as [|k IH]; intros i Hi Hk; [lia|].
    pose proof (H i Hi) as E. rewrite (psum_step e i (fun j => rr i j * x j)), (psum_step e i (fun j => rr i j * y j)) in E by lia.
    rewrite (psum_ext e (S i) (fun j => rr i j * x j) (fun j => rr i j * y j)) in E.
    - cbn beta in E. apply Rmult_eq_reg_l with (rr i i); [lra|now apply D].
    - intros j Hj. now rewrite (IH j) by lia. }
  intros i Hi. apply (Q (e - i)%nat); auto.
Qed.

Lemma rev_seq_S a m : rev (seq a (S m)) = (a + m)%nat :: rev (seq a m).
Proof. rewrite seq_S, rev_app_distr. reflexivity. Qed.

Section Seysen.
Variable fp : fpops R.
Hypothesis X : exact fp.
Variable c : cfg.
Notation n := (cn c).
Notation d := (cd c).
Notation fz := (fzero fp).
Notation Sj s j := (nth j (iS s) 0%nat).
Notation b s j := (bval fp s j).
Notation V g := (Vf fp g).
Notation r g i j := (mget fz (fR g) i j).
Notation sgood := (sgood c).
Notation gwf := (gwf c).
Notation EI := (EI fp c).
Notation cur := (cur fp c).
Notation done := (done fp c).
Notation W s g kappa := (Hs n (V g) kappa (b s kappa)).

Hypothesis ST : (cS c = 1)%nat.
Hypothesis SEY : (1 <= cseysen c)%Z.
Hypothesis LG : clong c = true.
Let EX : expo_nonneg fp := e_expo fp X.

(** *** the right-hand side of the system *)
Lemma tmp_fold (M : mat R) kappa a : (kappa < d)%nat -> (d <= n)%nat -> forall m t, (a + m <= kappa)%nat -> length t = kappa ->
  exists t', mfold (fun i t => let* v := gR fp c M i kappa in Ok (lupd t i v)) (rev (seq a m)) t = Ok t' /\ length t' = kappa /\
    forall i, nth i t' fz = if ((a <=? i)%nat && (i <? a + m)%nat)%bool then mget fz M i kappa else nth i t fz.
Proof.
  intros Hk ND. induction m as [|m IH]; intros t Hm L.
  - exists t. split; [reflexivity|]. split; [exact L|]. intros i. destruct (Nat.leb_spec a i), (Nat.ltb_spec i (a + 0)); cbn [andb]; auto; lia.
  - rewrite rev_seq_S. cbn [mfold]. rewrite (gR_ok fp) by lia. cbn [bind].
    destruct (IH (lupd t (a + m) (mget fz M (a + m) kappa)) ltac:(lia)) as (t' & -> & L' & E).
    { now rewrite lupd_length. }
    exists t'. split; [reflexivity|]. split; [exact L'|]. intros i. rewrite E.
    destruct (Nat.eq_dec i (a + m)) as [->|N].
    + rewrite nth_lupd_eq by lia.
      destruct (Nat.leb_spec a (a + m)), (Nat.ltb_spec (a + m) (a + m)), (Nat.ltb_spec (a + m) (a + S m)); cbn [andb]; auto; lia.
    + rewrite nth_lupd_neq by assumption.
      destruct (Nat.leb_spec a i), (Nat.ltb_spec i (a + m)), (Nat.ltb_spec i (a + S m)); cbn [andb]; auto; lia.
Qed.

(** *** the coefficients *)
Lemma subs_fold (M : mat R) q x a : forall m t, (a + m <= length t)%nat ->
  length (fold_left (fun t k => lupd t k (fsubmul fp (nth k t fz) (mget fz M k q) x)) (seq a m) t) = length t /\
  forall i, nth i (fold_left (fun t k => lupd t k (fsubmul fp (nth k t fz) (mget fz M k q) x)) (seq a m) t) fz =
    if ((a <=? i)%nat && (i <? a + m)%nat)%bool then nth i t fz - mget fz M i q * x else nth i t fz.
Proof.
  induction m as [|m IH]; intros t L.
  - cbn [seq fold_left]. split; [reflexivity|]. intros i. destruct (Nat.leb_spec a i), (Nat.ltb_spec i (a + 0)); cbn [andb]; auto; lia.
  - rewrite seq_S, fold_left_app. cbn [fold_left]. destruct (IH t ltac:(lia)) as [I1 I2].
    set (t1 := fold_left _ (seq a m) t) in *. split; [now rewrite lupd_length|]. intros i.
    destruct (Nat.eq_dec i (a + m)) as [->|N].
    + rewrite nth_lupd_eq by lia. rewrite (e_submul fp X), I2.
      destruct (Nat.leb_spec a (a + m)), (Nat.ltb_spec (a + m) (a + m)), (Nat.ltb_spec (a + m) (a + S m)); cbn [andb]; auto; lia.
    + rewrite nth_lupd_neq by assumption. rewrite I2.
      destruct (Nat.leb_spec a i), (Nat.ltb_spec i (a + m)), (Nat.ltb_spec i (a + S m)); cbn [andb]; auto; lia.
Qed.

Lemma coefs_fold (M : mat R) kappa a e (w : nat -> R) : (kappa < d)%nat -> (d <= n)%nat -> (e <= kappa)%nat ->
  (forall i, (i < kappa)%nat -> mget fz M i i <> 0) ->
  forall m vx tmp, (a + m <= e)%nat -> length vx = kappa -> length tmp = kappa ->
  (forall i, (a <= i < a + m)%nat -> nth i tmp fz = w i - psum e (a + m) (fun j => mget fz M i j * nth j vx fz)) ->
  (forall i, (a + m <= i < e)%nat -> w i = psum e i (fun j => mget fz M i j * nth j vx fz)) ->
  exists vx' tmp', mfold (seysen_coefs_step fp c M a) (rev (seq a m)) (vx, tmp) = Ok (vx', tmp') /\
    length vx' = kappa /\ length tmp' = kappa /\
    forall i, (a <= i < e)%nat -> w i = psum e i (fun j => mget fz M i j * nth j vx' fz).
Proof.
  intros Hk ND He D. induction m as [|m IH]; intros vx tmp Hm L1 L2 H1 H2.
  - exists vx, tmp. split; [reflexivity|]. split; [exact L1|]. split; [exact L2|]. intros i Hi. apply H2. lia.
  - rewrite rev_seq_S. cbn [mfold]. unfold seysen_coefs_step at 1. rewrite (gR_ok fp) by lia. cbn [bind]. unfold guard.
    replace (a + m <? n)%nat with true by (symmetry; apply Nat.ltb_lt; lia).
    replace (a + m <? d)%nat with true by (symmetry; apply Nat.ltb_lt; lia). cbn [andb bind].
    set (xi := fdiv fp (nth (a + m) tmp fz) (mget fz M (a + m) (a + m))).
    replace (a + m - a)%nat with m by lia.
    destruct (subs_fold M (a + m) xi a m tmp ltac:(lia)) as [S1 S2].
    set (tmp1 := fold_left _ _ tmp) in *.
    assert (NE : forall j, j <> (a + m)%nat -> nth j (lupd vx (a + m) xi) fz = nth j vx fz) by (intros; now apply nth_lupd_neq).
    assert (EQ : nth (a + m) (lupd vx (a + m) xi) fz = xi) by (apply nth_lupd_eq; lia).
    apply IH; try lia.
    + now rewrite lupd_length.
    + intros i Hi. rewrite S2. replace ((a <=? i)%nat && (i <? a + m)%nat)%bool with true
        by (symmetry; apply andb_true_iff; split; [apply Nat.leb_le|apply Nat.ltb_lt]; lia).
      rewrite H1 by lia. rewrite (psum_step e (a + m)) by lia. rewrite EQ. replace (a + S m)%nat with (S (a + m)) by lia.
      rewrite (psum_ext e (S (a + m)) (fun j => mget fz M i j * nth j (lupd vx (a + m) xi) fz) (fun j => mget fz M i j * nth j vx fz)).
      * ring.
      * intros j Hj. now rewrite NE by lia.
    + intros i Hi. destruct (Nat.eq_dec i (a + m)) as [->|N].
      * rewrite (psum_step e (a + m)) by lia. rewrite EQ.
        rewrite (psum_ext e (S (a + m)) (fun j => mget fz M (a + m) j * nth j (lupd vx (a + m) xi) fz) (fun j => mget fz M (a + m) j * nth j vx fz)).
        2:{ intros j Hj. now rewrite NE by lia. }
        unfold xi. rewrite (e_div fp X), H1 by lia. replace (a + S m)%nat with (S (a + m)) by lia. field. apply D. lia.
      * rewrite H2 by lia. apply psum_ext. intros j Hj. now rewrite NE by lia.
Qed.

(** *** the update *)
Record uinv (kappa a e m : nat) (s0 : ist) (g0 : fst_ R) (s : ist) (g : fst_ R) (y : nat -> R) : Prop := {
  u_e : EI kappa s g;
  u_lo : forall i, (i < a)%nat -> r g i kappa = W s g kappa i;
  u_bl : forall i, (a <= i < e)%nat -> W s g kappa i = psum e i (fun j => r g i j * y j);
  u_hi : forall i, (e <= i < n)%nat -> W s g kappa i = W s0 g0 kappa i;
  u_half : forall j, (m <= j < e)%nat -> Rabs (y j) <= / 2;
  u_S : iS s = iS s0;
  u_B : forall j, j <> kappa -> col (iB s) j = col (iB s0) j;
  u_R : forall i j, j <> kappa -> r g i j = r g0 i j;
  u_g : g = set_R (fR g) g0;
  u_i : redto c s0 s }.

Lemma bcoef_long k xz : bcoef c (fst (fgse fp (IZR k))) (snd (fgse fp (IZR k))) xz = k.
Proof. rewrite <- (bcoef_exact fp X c k) at 3. unfold bcoef. rewrite LG. destruct (_ =? 0)%Z; auto. Qed.

Lemma upd_step kappa a e m s0 g0 s g y vx dn : (a <= m < e)%nat -> (e <= kappa)%nat -> (kappa < d)%nat ->
  uinv kappa a e (S m) s0 g0 s g y -> nth m vx fz = y m ->
  exists s' g' y' dn', seysen_update_step fp c kappa a m (s, g, vx, dn) = Ok (s', g', lupd vx m (frnd fp (y m)), dn') /\
    uinv kappa a e m s0 g0 s' g' y' /\ (forall j, j <> m -> y' j = y j) /\
    (dn' = false -> dn = false /\ s' = s /\ g' = g /\ y' = y) /\
    ((forall x, Rabs x <= / 2 -> frnd fp x = 0) -> Rabs (y m) <= / 2 -> dn' = dn).
Proof.
  intros Hm He Hk P Ey. pose proof (u_e _ _ _ _ _ _ _ _ _ P) as E. pose proof (EI_ND fp c _ _ _ E Hk) as ND.
  pose proof (ei_s _ _ _ _ _ E) as G. pose proof (ei_w _ _ _ _ _ E) as Wf.
  unfold seysen_update_step. rewrite Ey. destruct (e_rnd fp X (y m)) as (k & Ek & Hkk).
  destruct (fnz fp (frnd fp (y m))) eqn:NZk.
  - apply (e_nz fp X) in NZk. rewrite Ek in *. destruct (fgse fp (IZR k)) as [lx ex] eqn:GS.
    assert (Hex : (0 <= ex)%Z) by (pose proof (EX (IZR k)) as Q; rewrite GS in Q; exact Q).
    pose proof (g_le c s G m ltac:(lia)) as G2. pose proof (g_gt c s G m ltac:(lia)) as G1.
    unfold guard. replace (Sj s m <=? n)%nat with true by (symmetry; now apply Nat.leb_le).
    replace (a <=? n)%nat with true by (symmetry; apply Nat.leb_le; lia). cbn [andb].
    setf. exists (mkI (colop 0%Z (bop c lx ex (fset_f fp (fx g))) 0 (Sj s m) (iB s) kappa m)
       (if ctransf c then colop 0%Z (bop c lx ex (fset_f fp (fx g))) 0 (min d (Sj s m)) (iU s) kappa m else iU s) (iS s)).
    eexists. exists (fun j => if (j =? m)%nat then y m - IZR k else y j), true. split; [reflexivity|].
    set (g' := set_R _ _). rewrite !(colop_bop c lx ex) by assumption.
    pose proof (bcoef_long k (fset_f fp (fx g))) as BC. rewrite GS in BC. cbn [fst snd] in BC. rewrite BC.
    set (s' := mkI _ _ _).
    assert (St : isteps c s s') by (apply Relation_Operators.rt_step; apply is_red; lia).
    assert (G' : sgood s') by (apply (sgood_steps c s); [now apply isteps_P|reflexivity|exact G]).
    assert (RG : forall i j, (i < n)%nat -> r g' i j = if ((j =? kappa)%nat && (i <? a)%nat)%bool then r g i kappa - IZR k * r g i m else r g i j).
    { intros i j Hi. unfold g'. setf. rewrite (mget_colop fz _ n d) by (try apply Wf; auto; lia). cbn [Nat.leb andb Nat.add].
      pose proof (rop_exact fp X k (r g i kappa) (r g i m)) as RO. rewrite GS in RO. cbn [fst snd] in RO. now rewrite RO. }
    assert (OUT : forall i j, (n <= i)%nat -> r g' i j = r g i j).
    { intros i j Hi. unfold g'. setf. rewrite !(mget_out fz n d) by (first [apply wfm_colop, Wf | apply Wf | now left]). reflexivity. }
    assert (RN : forall i j, j <> kappa -> r g' i j = r g i j).
    { intros i j Nj. destruct (Nat.lt_ge_cases i n); [|now apply OUT]. rewrite RG by assumption. apply Nat.eqb_neq in Nj. now rewrite Nj. }
    assert (Wf' : gwf g') by (destruct Wf; unfold g'; split; setf; auto; now apply wfm_colop).
    assert (CB : forall j, j <> kappa -> col (iB s') j = col (iB s) j) by (intros j Nj; unfold s', colop; cbn [iB]; now apply col_lupd_neq).
    assert (BB : forall i, (i < n)%nat -> b s' kappa i = b s kappa i - IZR k * b s m i).
    { intros i Hi. rewrite !(bval_IZR fp X). unfold s', fn. cbn [iB].
      rewrite (mget_colop 0%Z _ n d) by (try apply (g_bok c s G); auto). rewrite Nat.eqb_refl. cbn [Nat.leb andb Nat.add].
      destruct (Nat.ltb_spec i (Sj s m)).
      - unfold redf. rewrite minus_IZR, mult_IZR. reflexivity.
      - pose proof (b_zero' fp X c s m i G ltac:(lia) ltac:(lia)) as Z. rewrite (bval_IZR fp X) in Z. unfold fn in Z. rewrite Z. ring. }
    assert (E' : EI kappa s' g').
    { split; auto.
      - apply (independent_step c s); auto. apply E.
      - intros q Hq. exact (ei_v _ _ _ _ _ E q Hq).
      - intros j Hj. destruct (ei_c _ _ _ _ _ E j Hj) as [C1 C2]. split.
        + rewrite (bval_neq fp s' s kappa) by (auto; lia). intros i Hi. change (V g') with (V g). rewrite C1, RN by (auto; lia). reflexivity.
        + rewrite RN by lia. exact C2. }
    pose proof (ei_c _ _ _ _ _ E m ltac:(lia)) as CM.
    assert (WW : forall i, (i < n)%nat -> W s' g' kappa i = W s g kappa i - IZR k * (if (i <=? m)%nat then r g i m else 0)).
    { intros i Hi. change (V g') with (V g).
      rewrite (Hs_ext n (V g) kappa _ (fun i => b s kappa i - IZR k * b s m i)) by assumption.
      rewrite Hs_sub by assumption. now rewrite (Hs_col fp c s g m kappa i CM) by lia. }
    split; [|split; [|split; [discriminate|]]].
    + split.
      * exact E'.
      * intros i Hi. rewrite RG, Nat.eqb_refl, WW by lia. replace (i <? a)%nat with true by (symmetry; now apply Nat.ltb_lt). cbn [andb].
        replace (i <=? m)%nat with true by (symmetry; apply Nat.leb_le; lia). now rewrite (u_lo _ _ _ _ _ _ _ _ _ P i Hi).
      * intros i Hi. rewrite WW by lia. rewrite (u_bl _ _ _ _ _ _ _ _ _ P i Hi).
        destruct (Nat.leb_spec i m) as [L|L].
        -- transitivity (psum e i (fun j => r g i j * y j - (if (j =? m)%nat then IZR k * r g i m else 0))).
           ++ unfold psum. rewrite (sumR_ext e (fun j => if (i <=? j)%nat then r g i j * y j - (if (j =? m)%nat then IZR k * r g i m else 0) else 0)
                (fun j => (if (i <=? j)%nat then r g i j * y j else 0) - (if (j =? m)%nat then IZR k * r g i m else 0))).
              ** rewrite sumR_minus. f_equal. rewrite (sumR_single e m); [now rewrite Nat.eqb_refl|lia|].
                 intros q _ Nq. apply Nat.eqb_neq in Nq. now rewrite Nq.
              ** intros j Hj. destruct (Nat.leb_spec i j), (Nat.eqb_spec j m); try lia; ring.
           ++ apply psum_ext. intros j Hj. rewrite RN by lia. destruct (Nat.eqb_spec j m) as [->|]; ring.
        -- rewrite Rmult_0_r, Rminus_0_r. apply psum_ext. intros j Hj. rewrite RN by lia.
           now replace (j =? m)%nat with false by (symmetry; apply Nat.eqb_neq; lia).
      * intros i Hi. rewrite WW by lia. replace (i <=? m)%nat with false by (symmetry; apply Nat.leb_gt; lia).
        rewrite (u_hi _ _ _ _ _ _ _ _ _ P i Hi). ring.
      * intros j Hj. destruct (Nat.eqb_spec j m) as [->|N]; [exact Hkk|]. apply (u_half _ _ _ _ _ _ _ _ _ P). lia.
      * exact (u_S _ _ _ _ _ _ _ _ _ P).
      * intros j Nj. rewrite CB by assumption. now apply (u_B _ _ _ _ _ _ _ _ _ P).
      * intros i j Nj. rewrite RN by assumption. now apply (u_R _ _ _ _ _ _ _ _ _ P).
      * unfold g'. rewrite (u_g _ _ _ _ _ _ _ _ _ P) at 2. reflexivity.
      * apply red_step; [apply (u_i _ _ _ _ _ _ _ _ _ P)|lia|lia].
    + intros j Nj. apply Nat.eqb_neq in Nj. now rewrite Nj.
    + intros H1 H2. contradiction NZk. rewrite <- Ek. now apply H1.
  - exists s, g, y, dn. split; [reflexivity|].
    assert (K0 : IZR k = 0).
    { destruct (Req_dec (IZR k) 0) as [Z|Z]; auto. exfalso. rewrite Ek in NZk.
      assert (fnz fp (IZR k) = true) by (now apply (e_nz fp X)). congruence. }
    split; [|split; [auto|split; [auto|auto]]].
    destruct P as [P1 P2 P3 P4 P5 P6 P7 P8 P9 P10]. split; auto.
    intros j Hj. destruct (Nat.eq_dec j m) as [->|N]; [|apply P5; lia]. now rewrite K0, Rminus_0_r in Hkk.
Qed.

Lemma upd_fold kappa a e s0 g0 : (e <= kappa)%nat -> (kappa < d)%nat -> forall m s g y vx dn, (a + m <= e)%nat ->
  length vx = kappa -> uinv kappa a e (a + m) s0 g0 s g y -> (forall j, (a <= j < a + m)%nat -> nth j vx fz = y j) ->
  exists s' g' y' vx' dn', mfold (seysen_update_step fp c kappa a) (rev (seq a m)) (s, g, vx, dn) = Ok (s', g', vx', dn') /\
    length vx' = kappa /\ uinv kappa a e a s0 g0 s' g' y' /\
    (dn' = false -> dn = false /\ s' = s /\ g' = g /\ y' = y) /\
    ((forall x, Rabs x <= / 2 -> frnd fp x = 0) -> (forall j, (a <= j < a + m)%nat -> Rabs (y j) <= / 2) -> dn' = dn).
Proof.
  intros He Hk. induction m as [|m IH]; intros s g y vx dn Hm L P EV.
  - rewrite Nat.add_0_r in P. exists s, g, y, vx, dn. split; [reflexivity|]. split; [exact L|]. split; [exact P|]. split; auto 6.
  - rewrite rev_seq_S. cbn [mfold]. replace (a + S m)%nat with (S (a + m)) in P by lia.
    destruct (upd_step kappa a e (a + m) s0 g0 s g y vx dn ltac:(lia) He Hk P (EV (a + m)%nat ltac:(lia)))
      as (s1 & g1 & y1 & dn1 & -> & P1 & Y1 & F1 & F2). cbn [bind].
    destruct (IH s1 g1 y1 (lupd vx (a + m) (frnd fp (y (a + m)%nat))) dn1 ltac:(lia)) as (s2 & g2 & y2 & vx2 & dn2 & -> & L2 & P2 & F3 & F4).
    { now rewrite lupd_length. }
    { exact P1. }
    { intros j Hj. rewrite nth_lupd_neq by lia. rewrite Y1 by lia. apply EV. lia. }
    exists s2, g2, y2, vx2, dn2. split; [reflexivity|]. split; [exact L2|]. split; [exact P2|]. split.
    + intros D. destruct (F3 D) as (D1 & -> & -> & ->). destruct (F1 D1) as (-> & -> & -> & ->). auto.
    + intros H1 H2. rewrite F4; auto. 
      * apply F2; auto. apply H2. lia.
      * intros j Hj. rewrite Y1 by lia. apply H2. lia.
Qed.

(** *** one block *)
Lemma block_exact kappa ix bd s g vx tmp dn : (ix + bd <= kappa)%nat -> (kappa < d)%nat ->
  length vx = kappa -> length tmp = kappa -> EI kappa s g ->
  (forall i, (i < kappa - ix)%nat -> r g i kappa = W s g kappa i) ->
  exists s' g' y vx' tmp' sd, seysen_block fp c kappa ix bd (s, g, vx, tmp, dn) = Ok (s', g', vx', tmp', orb dn sd) /\
    length vx' = kappa /\ length tmp' = kappa /\
    uinv kappa (kappa - ix - bd) (kappa - ix) (kappa - ix - bd) s g s' g' y /\
    (sd = false -> s' = s /\ g' = g) /\
    ((forall x, Rabs x <= / 2 -> frnd fp x = 0) -> blockok (fun i j => r g i j) (W s g kappa) (kappa - ix - bd) (kappa - ix) -> sd = false).
Proof.
  intros Hb Hk L1 L2 E EW. pose proof (EI_ND fp c _ _ _ E Hk) as ND.
  set (a := (kappa - ix - bd)%nat) in *. replace (kappa - ix)%nat with (a + bd)%nat in * by lia. set (e := (a + bd)%nat) in *.
  unfold seysen_block, block_rows. fold a.
  destruct (tmp_fold (fR g) kappa a Hk ND bd tmp ltac:(lia) L2) as (t1 & -> & L3 & T1). cbn [bind].
  assert (D : forall i, (i < kappa)%nat -> r g i i <> 0) by (intros i Hi; apply (ei_c _ _ _ _ _ E i Hi)).
  destruct (coefs_fold (fR g) kappa a e (fun i => W s g kappa i) Hk ND ltac:(lia) D bd vx t1 ltac:(lia) L1 L3) as (vx1 & t2 & -> & L4 & L5 & Q).
  { intros i Hi. rewrite psum_end by lia. rewrite T1. replace ((a <=? i)%nat && (i <? a + bd)%nat)%bool with true
      by (symmetry; apply andb_true_iff; split; [apply Nat.leb_le|apply Nat.ltb_lt]; lia). rewrite EW by lia. ring. }
  { intros i Hi. lia. }
  cbn [bind]. rewrite ST. cbn [Nat.eqb orb].
  assert (P0 : uinv kappa a e (a + bd) s g s g (fun j => nth j vx1 fz)).
  { split; auto.
    - intros i Hi. apply EW. lia.
    - intros j Hj. lia.
    - now destruct g.
    - apply red_refl. }
  destruct (upd_fold kappa a e s g ltac:(lia) Hk bd s g (fun j => nth j vx1 fz) vx1 false ltac:(lia) L4 P0 ltac:(reflexivity))
    as (s' & g' & y' & vx2 & sd & -> & L6 & P1 & F1 & F2). cbn [bind].
  exists s', g', y', vx2, t2, sd. split; [reflexivity|]. split; [exact L6|]. split; [exact L5|]. split; [exact P1|]. split.
  - intros Z. destruct (F1 Z) as (_ & -> & -> & _). auto.
  - intros H1 (y & Y1 & Y2). apply F2; auto. intros j Hj. rewrite (solve_unique (fun i j => r g i j) a e (fun j => nth j vx1 fz) y); auto.
    + intros i Hi. apply D. lia.
    + intros i Hi. rewrite <- Q, <- Y2 by assumption. reflexivity.
Qed.

(** *** one pass *)
Definition seysen_col (kappa : nat) (g : fst_ R) : Prop :=
  forall p, In p (seysen_blocks (kappa + 1) 1 0 kappa) ->
    blockok (fun i j => r g i j) (fun i => r g i kappa) (kappa - fst p - snd p) (kappa - fst p).

Record sinv (kappa ix : nat) (bl : list (nat * nat)) (s0 : ist) (g0 : fst_ R) (s : ist) (g : fst_ R) (dn : bool) : Prop := {
  v_e : EI kappa s g;
  v_lo : forall i, (i < kappa - ix)%nat -> r g i kappa = W s g kappa i;
  v_bl : forall p, In p bl -> blockok (fun i j => r g i j) (W s g kappa) (kappa - fst p - snd p) (kappa - fst p);
  v_hi : forall i, (kappa <= i < n)%nat -> W s g kappa i = W s0 g0 kappa i;
  v_S : iS s = iS s0;
  v_B : forall j, j <> kappa -> col (iB s) j = col (iB s0) j;
  v_R : forall i j, j <> kappa -> r g i j = r g0 i j;
  v_g : g = set_R (fR g) g0;
  v_i : redto c s0 s;
  v_d : dn = false -> s = s0 /\ g = g0;
  v_b : forall p, In p bl -> (kappa - ix <= kappa - fst p - snd p)%nat }.

Lemma sinv_step kappa ix bd bl s0 g0 s g dn vx tmp : (ix + bd <= kappa)%nat -> (kappa < d)%nat ->
  length vx = kappa -> length tmp = kappa -> sinv kappa ix bl s0 g0 s g dn ->
  exists s' g' vx' tmp' dn', seysen_block fp c kappa ix bd (s, g, vx, tmp, dn) = Ok (s', g', vx', tmp', dn') /\
    length vx' = kappa /\ length tmp' = kappa /\ sinv kappa (ix + bd) (bl ++ [(ix, bd)]) s0 g0 s' g' dn' /\
    ((forall x, Rabs x <= / 2 -> frnd fp x = 0) -> cur s0 g0 kappa ->
      blockok (fun i j => r g0 i j) (fun i => r g0 i kappa) (kappa - ix - bd) (kappa - ix) -> dn' = dn).
Proof.
  intros Hb Hk L1 L2 P. pose proof (EI_ND fp c _ _ _ (v_e _ _ _ _ _ _ _ _ P) Hk) as ND.
  destruct (block_exact kappa ix bd s g vx tmp dn Hb Hk L1 L2 (v_e _ _ _ _ _ _ _ _ P) (v_lo _ _ _ _ _ _ _ _ P))
    as (s' & g' & y & vx' & tmp' & sd & EQ & L3 & L4 & U & F1 & F2).
  exists s', g', vx', tmp', (dn || sd)%bool. split; [exact EQ|]. split; [exact L3|]. split; [exact L4|].
  destruct P as [P1 P2 P3 P4 P5 P6 P7 P8 P9 P10 P11]. destruct U as [U1 U2 U3 U4 U5 U6 U7 U8 U9 U10].
  split.
  - split; auto.
    + intros i Hi. apply U2. lia.
    + intros p Hp. apply in_app_iff in Hp as [Hp|[<-|[]]].
      * pose proof (P11 p Hp). apply (blockok_ext (fun i j => r g i j) (W s g kappa)); [| |now apply P3].
        -- intros i j Hi Hj. apply U8. lia.
        -- intros i Hi. apply U4. lia.
      * cbn [fst snd]. exists y. split; [exact U5|exact U3].
    + intros i Hi. rewrite U4 by lia. apply P4. lia.
    + congruence.
    + intros j Nj. rewrite U7 by assumption. now apply P6.
    + intros i j Nj. rewrite U8 by assumption. now apply P7.
    + rewrite U9, P8. reflexivity.
    + now apply redto_trans with s.
    + intros D. apply orb_false_iff in D as [D1 D2]. destruct (F1 D2) as [-> ->]. now apply P10.
    + intros p Hp. apply in_app_iff in Hp as [Hp|[<-|[]]].
      * pose proof (P11 p Hp). lia.
      * cbn [fst snd]. lia.
  - intros H1 C B. destruct dn; [reflexivity|]. cbn [orb]. destruct (P10 eq_refl) as [-> ->].
    apply F2; auto. apply (blockok_ext (fun i j => r g0 i j) (fun i => r g0 i kappa)); auto.
    intros i Hi. rewrite C by lia. pose proof (g_gt c s0 (ei_s _ _ _ _ _ P1) kappa Hk).
    now replace (i <? Sj s0 kappa)%nat with true by (symmetry; apply Nat.ltb_lt; lia).
Qed.

Lemma sinv_fold kappa s0 g0 : (kappa < d)%nat -> forall fuel ld ix bl s g dn vx tmp,
  (forall p, In p (seysen_blocks fuel ld ix kappa) -> (fst p + snd p <= kappa)%nat) ->
  length vx = kappa -> length tmp = kappa -> sinv kappa ix bl s0 g0 s g dn ->
  exists s' g' vx' tmp' dn' ix', mfold (fun b st => seysen_block fp c kappa (fst b) (snd b) st) (seysen_blocks fuel ld ix kappa) (s, g, vx, tmp, dn)
      = Ok (s', g', vx', tmp', dn') /\
    length vx' = kappa /\ length tmp' = kappa /\ sinv kappa ix' (bl ++ seysen_blocks fuel ld ix kappa) s0 g0 s' g' dn' /\
    ((forall x, Rabs x <= / 2 -> frnd fp x = 0) -> cur s0 g0 kappa ->
      (forall p, In p (seysen_blocks fuel ld ix kappa) -> blockok (fun i j => r g0 i j) (fun i => r g0 i kappa) (kappa - fst p - snd p) (kappa - fst p)) ->
      dn' = dn).
Proof.
  intros Hk. induction fuel as [|fuel IH]; intros ld ix bl s g dn vx tmp HB L1 L2 P; cbn [seysen_blocks] in *.
  { exists s, g, vx, tmp, dn, ix. split; [reflexivity|]. rewrite app_nil_r. auto. }
  destruct (ld <=? kappa)%nat eqn:EL.
  2:{ exists s, g, vx, tmp, dn, ix. split; [reflexivity|]. rewrite app_nil_r. auto. }
  set (bd := if ((kappa / ld) mod 2 =? 0)%nat then 0%nat else ld) in *.
  pose proof (HB _ (or_introl eq_refl)) as HB0. cbn [fst snd] in HB0. cbn [mfold fst snd].
  destruct (sinv_step kappa ix bd bl s0 g0 s g dn vx tmp HB0 Hk L1 L2 P) as (s1 & g1 & vx1 & t1 & dn1 & -> & L3 & L4 & P1 & Q1).
  cbn [bind].
  destruct (IH (ld * 2)%nat (ix + bd)%nat _ s1 g1 dn1 vx1 t1 ltac:(intros p Hp; apply HB; now right) L3 L4 P1)
    as (s2 & g2 & vx2 & t2 & dn2 & ix2 & -> & L5 & L6 & P2 & Q2).
  exists s2, g2, vx2, t2, dn2, ix2. split; [reflexivity|]. split; [exact L5|]. split; [exact L6|]. split.
  - now rewrite <- app_assoc in P2.
  - intros H1 C H2. rewrite Q2; auto.
    + apply Q1; auto. exact (H2 _ (or_introl eq_refl)).
    + intros p Hp. apply H2. now right.
Qed.

Lemma cur_W s g kappa i : sgood s -> (kappa < d)%nat -> (d <= n)%nat -> cur s g kappa -> (i < kappa)%nat -> r g i kappa = W s g kappa i.
Proof.
  intros G Hk ND C Hi. rewrite C by lia. pose proof (g_gt c s G kappa Hk).
  now replace (i <? Sj s kappa)%nat with true by (symmetry; apply Nat.ltb_lt; lia).
Qed.

Lemma pass_exact kappa s g vx tmp : (kappa < d)%nat -> EI kappa s g -> cur s g kappa -> length vx = kappa -> length tmp = kappa ->
  exists s' g' vx' tmp' dn ix, seysen_pass fp c s g vx tmp kappa = Ok (s', g', vx', tmp', dn) /\ length vx' = kappa /\ length tmp' = kappa /\
    sinv kappa ix (seysen_blocks (kappa + 1) 1 0 kappa) s g s' g' dn /\
    ((forall x, Rabs x <= / 2 -> frnd fp x = 0) -> seysen_col kappa g -> dn = false).
Proof.
  intros Hk E C L1 L2. pose proof (EI_ND fp c _ _ _ E Hk) as ND. unfold seysen_pass.
  assert (P : sinv kappa 0 [] s g s g false).
  { split; auto; try (intros p Hp; destruct Hp; fail).
    - intros i Hi. apply cur_W; auto; [apply E|lia].
    - now destruct g.
    - apply red_refl. }
  destruct (sinv_fold kappa s g Hk (kappa + 1) 1 0 [] s g false vx tmp) as (s2 & g2 & vx2 & t2 & dn2 & ix2 & -> & L5 & L6 & P2 & Q2); auto.
  { intros p Hp. apply (seysen_blocks_le (kappa + 1) 0). cbn [Nat.pow]. rewrite Nat.mod_1_r. exact Hp. }
  exists s2, g2, vx2, t2, dn2, ix2. split; [reflexivity|]. split; [exact L5|]. split; [exact L6|]. split; [exact P2|]. auto.
Qed.

(** *** seysenreduce *)
Lemma seysen_loop_exact fuel : forall s g vx tmp n0 n1 kappa, (1 <= kappa)%nat -> (kappa < d)%nat -> EI kappa s g -> cur s g kappa ->
  fnmax g = Sj s kappa -> length vx = kappa -> length tmp = kappa ->
  match seysen_loop_g fp c (hr_ref fp) fuel s g vx tmp n0 n1 kappa with
  | Ok (s', g') => done (seysen_col kappa) kappa s g s' g'
  | UB => False
  | NoFuel => (forall x, Rabs x <= / 2 -> frnd fp x = 0) -> (fuel < 2)%nat /\ (seysen_col kappa g -> fuel = 0%nat)
  end.
Proof.
  induction fuel as [|fuel IH]; intros s g vx tmp n0 n1 kappa H1 Hk E C M L1 L2; cbn [seysen_loop_g].
  { intros _. split; [lia|auto]. }
  pose proof (EI_ND fp c _ _ _ E Hk) as ND.
  destruct (pass_exact kappa s g vx tmp Hk E C L1 L2) as (s1 & g1 & vx1 & t1 & dn & ix & -> & L3 & L4 & P & Q). cbn [bind].
  destruct P as [P1 P2 P3 P4 P5 P6 P7 P8 P9 P10 P11].
  assert (EV : V g1 = V g) by (rewrite P8; reflexivity).
  destruct dn.
  - unfold hr_ref. cbn [bind]. set (g2 := set_kept _ g1).
    assert (E2 : EI kappa s1 g2).
    { pose proof (ei_w _ _ _ _ _ P1) as [W1 W2 W3]. apply (EI_frame fp c kappa s1 g1); auto. split; assumption. }
    destruct (hr_cur fp X c kappa s1 g2 E2 Hk) as (E3 & C3 & M3 & N3 & V3 & R3).
    set (g3 := householder_ref fp s1 g2 kappa) in *. change (V g2) with (V g1) in V3.
    assert (RD : seysen_col kappa g3).
    { intros p Hp. assert (HB : (fst p + snd p <= kappa)%nat) by (apply (seysen_blocks_le (kappa + 1) 0); cbn [Nat.pow]; rewrite Nat.mod_1_r; exact Hp).
      apply (blockok_ext (fun i j => r g1 i j) (W s1 g1 kappa)); [| |now apply P3].
      - intros i j Hi Hj. apply R3. lia.
      - intros i Hi. rewrite (cur_W s1 g3 kappa i) by (auto; try lia; apply E3). now rewrite V3. }
    assert (D3 : done (seysen_col kappa) kappa s g s1 g3).
    { split; auto.
      - intros i j Nj. rewrite R3 by assumption. now apply P7. }
    match goal with |- context [if ?bb then _ else _] => destruct bb end.
    + rewrite !(gR_ok fp) by lia. cbn [bind]. exact D3.
    + match goal with |- context [seysen_loop_g fp c _ fuel s1 g3 vx1 t1 ?q0 ?q1 kappa] =>
        specialize (IH s1 g3 vx1 t1 q0 q1 kappa H1 Hk E3 C3 M3 L3 L4) end.
      destruct (seysen_loop_g _ _ _ _ _ _ _ _ _ _ _) as [[s4 g4]| |]; auto.
      * destruct D3 as [A1 A2 A3 A4 A5 A6 A7 A8 A9 A10], IH as [B1 B2 B3 B4 B5 B6 B7 B8 B9 B10]. split; auto; try congruence.
        -- intros j Nj. rewrite B6 by assumption. auto.
        -- intros i j Nj. rewrite B8 by assumption. auto.
        -- intros i Hi. rewrite B9 by assumption. auto.
        -- now apply redto_trans with s1.
      * intros H. destruct (IH H) as [I1 I2]. rewrite (I2 RD) in *. split; [lia|].
        intros Rg. specialize (Q H Rg). discriminate.
  - destruct (P10 eq_refl) as [-> ->]. split; auto.
    intros p Hp. assert (HB : (fst p + snd p <= kappa)%nat) by (apply (seysen_blocks_le (kappa + 1) 0); cbn [Nat.pow]; rewrite Nat.mod_1_r; exact Hp).
    apply (blockok_ext (fun i j => r g i j) (W s g kappa)); auto.
    intros i Hi. apply cur_W; auto; [apply E|lia].
Qed.

Lemma seysen_reduce_exact fuel s g kappa : (1 <= kappa)%nat -> (kappa < d)%nat -> EI kappa s g ->
  match reduce_g fp c (hr_ref fp) fuel s g kappa with
  | Ok (s', g', bad) => bad = false /\ done (seysen_col kappa) kappa s g s' g'
  | UB => False
  | NoFuel => (forall x, Rabs x <= / 2 -> frnd fp x = 0) -> (fuel < 2)%nat
  end.
Proof.
  intros H1 Hk E. unfold reduce_g. replace (cseysen c <? 1)%Z with false by (symmetry; now apply Z.ltb_ge).
  unfold seysenreduce_g. set (g0 := set_nmax _ g).
  assert (E0 : EI kappa s g0).
  { pose proof (ei_w _ _ _ _ _ E) as [W1 W2 W3]. apply (EI_frame fp c kappa s g); auto. split; assumption. }
  unfold hr_ref at 1. cbn [bind].
  destruct (hr_cur fp X c kappa s g0 E0 Hk) as (E3 & C3 & M3 & N3 & V3 & R3).
  pose proof (seysen_loop_exact fuel s (householder_ref fp s g0 kappa) (repeat fz kappa) (repeat fz kappa) true true kappa H1 Hk E3 C3 M3
    (repeat_length _ _) (repeat_length _ _)) as L.
  destruct (seysen_loop_g _ _ _ _ _ _ _ _ _ _ _) as [[s4 g4]| |]; cbn [bind]; auto.
  - split; [reflexivity|]. destruct L as [B1 B2 B3 B4 B5 B6 B7 B8 B9 B10]. split; auto.
    intros i j Nj. rewrite B8 by assumption. now apply R3.
  - intros H. now apply L.
Qed.

Lemma seysen_ext kappa g g' : (forall i j, (i <= j <= kappa)%nat -> ~ (i = kappa /\ j = kappa) -> r g' i j = r g i j) ->
  seysen_col kappa g -> seysen_col kappa g'.
Proof.
  clear ST SEY LG EX. intros H P p Hp. apply (blockok_ext (fun i j => r g i j) (fun i => r g i kappa)); [| |now apply P].
  - intros i j Hi Hj. apply H; lia.
  - intros i Hi. apply H; lia.
Qed.

Lemma seysen_0 g : seysen_col 0 g.
Proof. intros p []. Qed.

End Seysen.
