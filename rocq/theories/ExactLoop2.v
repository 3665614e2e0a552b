(** * hlll in exact arithmetic: the main loop *)
From Coq Require Import ZArith Lia Reals Lra List Bool Arith.
From Verif Require Import Base Spec Mat FP Hlll IntSteps HlllInt Structure Object Safety SpecReal Fresh Cache Cache2 Cache4 Cache5 Exact HHMath ExactLoop.
Import ListNotations.
Local Open Scope R_scope.

Section Loop.
Variable fp : fpops R.
Hypothesis X : exact fp.
Variable c : cfg.
Notation n := (cn c).
Notation d := (cd c).
Notation fz := (fzero fp).
Notation Sj s j := (nth j (iS s) 0%nat).
Notation b s j := (bval fp s j).
Notation V g := (Vf fp g).
Notation r g i j := (mget fz (fR g) i j).
Notation sgood := (sgood c).
Notation gwf := (gwf c).
Notation EI := (EI fp c).
Notation cur := (cur fp c).
Notation redd := (redd fp).
Notation done := (done fp c).

(** squared length of the component of b_kappa orthogonal to the previous columns *)
Definition tail (s : ist) (g : fst_ R) (kappa : nat) : R :=
  sumR n (fun i => if (kappa <=? i)%nat then Hs n (V g) kappa (b s kappa) i * Hs n (V g) kappa (b s kappa) i else 0).

Lemma gcol_ok (M : mat R) j k : (j < d)%nat -> (k <= n)%nat -> gcol c M j k = Ok (skipn k (col M j)).
Proof. intros Hj Hk. unfold gcol, guard. apply Nat.ltb_lt in Hj. apply Nat.leb_le in Hk. now rewrite Hj, Hk. Qed.

Lemma norm_tail kappa s g : EI kappa s g -> (kappa < d)%nat -> cur s g kappa ->
  fp_norm fp (skipn kappa (col (fR g) kappa)) (Sj s kappa - kappa) = Ok (sqrt (tail s g kappa)).
Proof.
  intros E Hk C. pose proof (EI_ND fp c _ _ _ E Hk) as ND. pose proof (ei_s _ _ _ _ _ E) as G. pose proof (ei_w _ _ _ _ _ E) as W.
  pose proof (g_gt c s G kappa Hk) as G1. pose proof (g_le c s G kappa Hk) as G2.
  assert (LR : length (col (fR g) kappa) = n) by (apply (wfm_col n d); [apply W|lia]).
  unfold fp_norm, fp_norm_sq. rewrite scalarprod_dotf by lia. cbn [bind]. rewrite (e_sqrt fp X). do 2 f_equal.
  rewrite dotf_sum by (auto; lia). unfold tail. symmetry.
  rewrite (sumR_cut n (Sj s kappa)); auto.
  - apply sumR_ext. intros i Hi. destruct (kappa <=? i)%nat; auto.
    rewrite (C i) by lia. now replace (i <? Sj s kappa)%nat with true by (symmetry; now apply Nat.ltb_lt).
  - intros i Hi. destruct (kappa <=? i)%nat; auto. rewrite (C i) by lia.
    replace (i <? Sj s kappa)%nat with false by (symmetry; apply Nat.ltb_ge; lia). ring.
Qed.

Lemma tail_sqrt kappa s g : EI kappa s g -> (kappa < d)%nat -> sqrt (tail s g kappa) * sqrt (tail s g kappa) = tail s g kappa.
Proof. intros E Hk. pose proof (tail_pos fp X c kappa s g E Hk) as P. apply sqrt_sqrt. unfold tail. lra. Qed.

Lemma hv_exact kappa s g : EI kappa s g -> (kappa < d)%nat -> cur s g kappa -> fnmax g = Sj s kappa ->
  exists g', householder_v fp c g kappa = Ok g' /\ EI (S kappa) s g' /\
    (forall i j, ~ (i = kappa /\ j = kappa) -> r g' i j = r g i j) /\
    r g' kappa kappa * r g' kappa kappa = tail s g kappa /\
    (forall k i, k <> kappa -> V g' i k = V g i k) /\ fnB2 g' = fnB2 g.
Proof.
  intros E Hk C M. pose proof (EI_ND fp c _ _ _ E Hk) as ND. pose proof (ei_s _ _ _ _ _ E) as G. pose proof (ei_w _ _ _ _ _ E) as W.
  pose proof (g_gt c s G kappa Hk) as G1. pose proof (g_le c s G kappa Hk) as G2.
  pose proof (tail_pos fp X c kappa s g E Hk) as TP. fold (tail s g kappa) in TP.
  unfold householder_v. rewrite M, gR_ok by lia. cbn [bind]. rewrite gcol_ok by lia. cbn [bind].
  unfold guard. replace (Sj s kappa <=? n)%nat with true by (symmetry; now apply Nat.leb_le).
  rewrite (norm_tail kappa s g E Hk C). cbn [bind].
  set (w := Hs n (V g) kappa (b s kappa)).
  assert (W0 : r g kappa kappa = w kappa).
  { unfold w. rewrite (C kappa) by lia. now replace (kappa <? Sj s kappa)%nat with true by (symmetry; now apply Nat.ltb_lt). }
  set (sg := if Rle_dec 0 (w kappa) then sqrt (tail s g kappa) else - sqrt (tail s g kappa)).
  assert (SG : (if fle fp fz (r g kappa kappa) then (sqrt (tail s g kappa), fneg fp (sqrt (tail s g kappa)))
      else (fneg fp (sqrt (tail s g kappa)), sqrt (tail s g kappa))) = (sg, - sg)).
  { unfold sg. destruct (fle fp fz (r g kappa kappa)) eqn:L; rewrite (e_neg fp X).
    - apply (e_le fp X) in L. rewrite W0, (e_zero fp X) in L. destruct (Rle_dec 0 (w kappa)) as [|Q]; auto.
      contradiction Q.
    - destruct (Rle_dec 0 (w kappa)) as [Q|Q].
      + exfalso. assert (fle fp fz (r g kappa kappa) = true); [|congruence].
        apply (e_le fp X). rewrite W0, (e_zero fp X). exact Q.
      + now rewrite Ropp_involutive. }
  rewrite SG. clear SG. rewrite W0. setf.
  set (s2 := fsqrt fp _). assert (S2 : s2 = sqrt (sg * (w kappa + sg))) by (unfold s2; now rewrite (e_sqrt fp X), (e_mul fp X), (e_add fp X)).
  match goal with |- context [Ok (set_V (lupd (fV g) kappa ?v) (set_R ?q g))] => set (vn := v); set (Rn := q) end.
  eexists. split; [reflexivity|]. set (g' := set_V _ _).
  assert (Lv : length vn = n) by (unfold vn; now rewrite map_length, seq_length).
  assert (RG : forall i j, r g' i j = if ((i =? kappa)%nat && (j =? kappa)%nat)%bool then - sg else r g i j).
  { intros i j. unfold g', Rn. setf. apply (mget_mset fz n d); [apply W|lia|lia]. }
  assert (RN : forall i j, ~ (i = kappa /\ j = kappa) -> r g' i j = r g i j).
  { intros i j N. rewrite RG. destruct (Nat.eqb_spec i kappa), (Nat.eqb_spec j kappa); cbn [andb]; auto. now contradiction N. }
  assert (RK : r g' kappa kappa = - sg) by (rewrite RG, Nat.eqb_refl; reflexivity).
  assert (VN : forall k i, k <> kappa -> V g' i k = V g i k).
  { intros k i N. unfold Vf, g', mget. setf. now rewrite col_lupd_neq. }
  assert (VK : forall i, (kappa <= i < n)%nat -> V g' i kappa = if (i =? kappa)%nat then (w kappa + sg) / s2 else w i / s2).
  { intros i Hi. unfold Vf, g', mget. setf. rewrite col_lupd_eq by (rewrite (wfm_length n d); [lia|apply W]).
    unfold vn. rewrite nth_map_seq by lia. cbn [Nat.add]. destruct (Nat.eqb_spec i kappa) as [->|N].
    - now rewrite (e_div fp X), (e_add fp X).
    - unfold w. rewrite (C i) by lia. destruct (Nat.leb_spec (Sj s kappa) i).
      + replace (i <? Sj s kappa)%nat with false by (symmetry; now apply Nat.ltb_ge). rewrite (e_zero fp X). unfold Rdiv. ring.
      + replace (i <? Sj s kappa)%nat with true by (symmetry; now apply Nat.ltb_lt).
        replace (kappa <? i)%nat with true by (symmetry; apply Nat.ltb_lt; lia). rewrite (e_div fp X).
        f_equal. change (r g' i kappa = r g i kappa). apply RN. lia. }
  assert (HE : forall i, (i < n)%nat -> Hs n (V g') kappa (b s kappa) i = w i).
  { intros i Hi. apply Hs_extV; auto. intros k l Hkk Hl. apply VN. lia. }
  assert (TW : tail s g kappa = sumR n (fun i => if (kappa <=? i)%nat then w i * w i else 0)) by reflexivity.
  destruct (hh_vector n (V g') kappa w) as (U & Z & RR & SQ).
  { lia. }
  { rewrite <- TW. exact TP. }
  { rewrite <- TW. fold sg. rewrite <- S2. exact VK. }
  rewrite <- TW in RR, SQ. fold sg in RR, SQ.
  assert (W' : gwf g').
  { destruct W. unfold g', Rn. split; setf; auto; [now apply wfm_mset|now apply wfm_lupd]. }
  assert (E0 : EI kappa s g').
  { apply (EI_frame fp c kappa s g); auto; intros; [apply VN|apply RN]; lia. }
  split; [|split; [exact RN|split; [|split; [exact VN|reflexivity]]]].
  - destruct E0 as [A1 A2 A3 A4 A5]. split; auto.
    + intros k Hkk. destruct (Nat.eq_dec k kappa) as [->|N]; [|apply A4; lia]. split; [exact U|].
      intros i Hi. rewrite VK by lia. replace (i =? kappa)%nat with false by (symmetry; apply Nat.eqb_neq; lia).
      unfold w. rewrite (C i) by lia. replace (i <? Sj s kappa)%nat with false by (symmetry; apply Nat.ltb_ge; lia). unfold Rdiv. ring.
    + intros j Hj. destruct (Nat.eq_dec j kappa) as [->|N]; [|apply A5; lia]. split.
      * intros i Hi. cbn [Hs]. rewrite (refl_ext n (V g') kappa _ w) by auto.
        destruct (Nat.leb_spec i kappa).
        -- destruct (Nat.eq_dec i kappa) as [->|Ni].
           ++ rewrite RR, RK. reflexivity.
           ++ rewrite refl_below by lia. rewrite RN by lia. unfold w. rewrite (C i) by lia.
              now replace (i <? Sj s kappa)%nat with true by (symmetry; apply Nat.ltb_lt; lia).
        -- apply Z. lia.
      * rewrite RK. intros Q. assert (sg = 0) as Q' by lra. rewrite Q' in SQ. lra.
  - rewrite RK. rewrite <- SQ. ring.
Qed.

Lemma lovasz_exact kappa s g delta : EI kappa s g -> (1 <= kappa)%nat -> (kappa < d)%nat -> cur s g kappa ->
  lovasz fp c delta s g kappa =
  Ok (delta * (r g (kappa - 1) (kappa - 1) * r g (kappa - 1) (kappa - 1)),
      tail s g kappa + r g (kappa - 1) kappa * r g (kappa - 1) kappa).
Proof.
  intros E H1 Hk C. pose proof (EI_ND fp c _ _ _ E Hk) as ND.
  unfold lovasz. rewrite !gR_ok by lia. cbn [bind]. rewrite gcol_ok by lia. cbn [bind].
  rewrite (norm_tail kappa s g E Hk C). cbn [bind]. rewrite !(e_mul fp X), (e_add fp X).
  now rewrite tail_sqrt.
Qed.

(** *** the first column *)
Lemma enter_exact kappa s g : EI (lim kappa) s g -> (1 <= kappa)%nat -> (kappa < d)%nat ->
  exists g', hlll_enter_g fp c (hr_ref fp) s g kappa = Ok g' /\ EI kappa s g' /\
    (kappa <> 1%nat -> fR g' = fR g /\ V g' = V g).
Proof.
  intros E H1 Hk. unfold hlll_enter_g, lim in *. destruct (Nat.eqb_spec kappa 1) as [->|N].
  - set (g1 := set_kmin _ g).
    assert (E1 : EI 0 s g1).
    { pose proof (ei_w _ _ _ _ _ E) as [W1 W2 W3]. apply (EI_frame fp c 0 s g); auto. split; assumption. }
    unfold hr_ref. cbn [bind].
    destruct (hr_cur fp X c 0 s g1 E1 ltac:(lia)) as (E2 & C2 & M2 & _).
    destruct (hv_exact 0 s _ E2 ltac:(lia) C2 M2) as (g' & -> & E3 & _). exists g'. split; [reflexivity|]. split; [exact E3|congruence].
  - eexists. split; [reflexivity|]. split; [|auto].
    pose proof (ei_w _ _ _ _ _ E) as [W1 W2 W3]. apply (EI_frame fp c kappa s g); auto. split; assumption.
Qed.

(** *** swap *)
Lemma swap_B s kappa j : sgood s -> (1 <= kappa)%nat -> (kappa < d)%nat ->
  col (iB (swap_i c s kappa)) j =
  col (iB s) (if (j =? kappa - 1)%nat then kappa else if (j =? kappa)%nat then (kappa - 1)%nat else j).
Proof. intros G H1 Hk. unfold swap_i. cbn [iB]. apply (col_colswap n d); [apply (g_bok c s G)|lia|lia]. Qed.

Lemma swap_b s kappa j : sgood s -> (1 <= kappa)%nat -> (kappa < d)%nat ->
  b (swap_i c s kappa) j = b s (if (j =? kappa - 1)%nat then kappa else if (j =? kappa)%nat then (kappa - 1)%nat else j).
Proof. intros G H1 Hk. unfold bval, mget. now rewrite swap_B. Qed.

Lemma swap_EI kappa s g : EI kappa s g -> (1 <= kappa)%nat -> (kappa < d)%nat ->
  EI (kappa - 1) (swap_i c s kappa) (swap_f fp g kappa).
Proof.
  intros E H1 Hk. pose proof (ei_s _ _ _ _ _ E) as G.
  assert (G' : sgood (swap_i c s kappa)) by (now apply swap_sgood).
  assert (BN : forall j, (j < kappa - 1)%nat -> b (swap_i c s kappa) j = b s j).
  { intros j Hj. rewrite swap_b by auto. replace (j =? kappa - 1)%nat with false by (symmetry; apply Nat.eqb_neq; lia).
    now replace (j =? kappa)%nat with false by (symmetry; apply Nat.eqb_neq; lia). }
  split; auto.
  - pose proof (ei_w _ _ _ _ _ E) as [W1 W2 W3]. unfold swap_f. split; setf; auto. now rewrite !lupd_length.
  - apply (independent_step c s); [exact G| |apply E]. apply Relation_Operators.rt_step. apply is_swap. lia.
  - intros k Hkk. destruct (ei_v _ _ _ _ _ E k ltac:(lia)) as [U Z]. split; [exact U|].
    intros i Hi. rewrite swap_S in Hi by auto. replace (k =? kappa - 1)%nat with false in Hi by (symmetry; apply Nat.eqb_neq; lia).
    now apply Z.
  - intros j Hj. destruct (ei_c _ _ _ _ _ E j ltac:(lia)) as [C1 C2]. split; [|exact C2].
    intros i Hi. rewrite BN by assumption. now apply C1.
Qed.

(** *** reducedness of the columns < kappa; [Pk j]: column j is reduced, a property of the
    entries of R on and above the diagonal, the diagonal entry of column j excepted *)
Variable Pk : nat -> fst_ R -> Prop.
Hypothesis Pk_ext : forall kappa g g',
  (forall i j, (i <= j <= kappa)%nat -> ~ (i = kappa /\ j = kappa) -> r g' i j = r g i j) -> Pk kappa g -> Pk kappa g'.

Definition Red (delta : R) (kappa : nat) (g : fst_ R) : Prop :=
  (forall j, (j < kappa)%nat -> Pk j g) /\
  (forall i, (S i < kappa)%nat -> delta * (r g i i * r g i i) <= r g i (S i) * r g i (S i) + r g (S i) (S i) * r g (S i) (S i)).

Lemma Red_ext delta kappa g g' : (forall i j, (i <= j < kappa)%nat -> r g' i j = r g i j) -> Red delta kappa g -> Red delta kappa g'.
Proof.
  intros H [A B]. split.
  - intros j Hj. apply (Pk_ext j g); [|now apply A]. intros i l Hil _. apply H. lia.
  - intros i Hi. rewrite !H by lia. now apply B.
Qed.

Lemma Red_le delta k k' g : (k' <= k)%nat -> Red delta k g -> Red delta k' g.
Proof. intros H [A B]. split; intros; [apply A|apply B]; lia. Qed.

(** *** the remembered diagonal entries *)
(** squared distance of column 1 to the line of column 0, without reference to the reflectors *)
Definition gram01 (s : ist) : R :=
  dot n (b s 1%nat) (b s 1%nat) - dot n (b s 0%nat) (b s 1%nat) * dot n (b s 0%nat) (b s 1%nat) / dot n (b s 0%nat) (b s 0%nat).

Lemma tail_gram s g : EI 1 s g -> (1 < d)%nat -> tail s g 1 = gram01 s.
Proof.
  intros E Hd. pose proof (EI_ND fp c _ _ _ E Hd) as ND.
  destruct (ei_c _ _ _ _ _ E 0%nat ltac:(lia)) as [C1 C2].
  assert (U : forall k, (k < 1)%nat -> unit2 n (V g) k) by (intros k Hk; apply (ei_v _ _ _ _ _ E k Hk)).
  assert (D0 : forall w, dot n (b s 0%nat) w = r g 0 0 * Hs n (V g) 1 w 0%nat).
  { intros w. rewrite <- (Hs_dot n (V g) 1) by assumption. unfold dot at 1. rewrite (sumR_single n 0).
    - rewrite C1 by lia. reflexivity.
    - lia.
    - intros i Hi N. rewrite C1 by assumption. replace (i <=? 0)%nat with false by (symmetry; apply Nat.leb_gt; lia). ring. }
  unfold gram01. rewrite (D0 (b s 1%nat)), (D0 (b s 0%nat)). rewrite (C1 0%nat) by lia. cbn [Nat.leb].
  rewrite <- (Hs_dot n (V g) 1 (b s 1%nat) (b s 1%nat)) by assumption.
  replace (r g 0 0 * Hs n (V g) 1 (b s 1%nat) 0%nat * (r g 0 0 * Hs n (V g) 1 (b s 1%nat) 0%nat) / (r g 0 0 * r g 0 0))
    with (Hs n (V g) 1 (b s 1%nat) 0%nat * Hs n (V g) 1 (b s 1%nat) 0%nat) by (field; assumption).
  unfold tail, dot. set (w := Hs n (V g) 1 (b s 1%nat)).
  replace n with (1 + (n - 1))%nat by lia. rewrite !sumR_split. cbn [sumR Nat.leb Nat.add].
  ring.
Qed.

Definition prevE (delta : R) (kappa : nat) (pk : Z) (p : list R) (s : ist) (g : fst_ R) : Prop :=
  length p = d /\
  (forall j, (1 <= j < kappa)%nat -> nth j p fz = Rabs (r g j j)) /\
  (delta <= 1 -> (pk = Z.of_nat kappa + 1)%Z ->
     0 <= nth kappa p fz /\
     (if (kappa =? 1)%nat then gram01 s else tail s g kappa) <= nth kappa p fz * nth kappa p fz).

(** *** the loop *)
Hypothesis reduce_ok : forall fuel s g kappa, (1 <= kappa)%nat -> (kappa < d)%nat -> EI kappa s g ->
  match reduce_g fp c (hr_ref fp) fuel s g kappa with
  | Ok (s', g', bad) => bad = false /\ done (Pk kappa) kappa s g s' g'
  | UB => False
  | NoFuel => (forall x, Rabs x <= / 2 -> frnd fp x = 0) -> (fuel < 2)%nat
  end.
Hypothesis Pk0 : forall g, Pk 0 g.
Hypothesis CK : ckmax c = d.
Variable delta : R.
Variable vb : bool.

(** a measure of progress *)
Variable D : ist -> Z.
Hypothesis D_pos : forall s, sgood s -> independent n d (fn (iB s)) -> (0 < D s)%Z.
Hypothesis D_red : forall s s', sgood s -> independent n d (fn (iB s)) -> redto c s s' -> D s' = D s.
Hypothesis D_swap : forall kappa s g, EI kappa s g -> cur s g kappa -> (1 <= kappa)%nat -> (kappa < d)%nat ->
  tail s g kappa + r g (kappa - 1) kappa * r g (kappa - 1) kappa < r g (kappa - 1) (kappa - 1) * r g (kappa - 1) (kappa - 1) ->
  (D (swap_i c s kappa) < D s)%Z.
Hypothesis D_ratio : forall theta kappa s g, EI kappa s g -> cur s g kappa -> (1 <= kappa)%nat -> (kappa < d)%nat ->
  tail s g kappa + r g (kappa - 1) kappa * r g (kappa - 1) kappa <= theta * (r g (kappa - 1) (kappa - 1) * r g (kappa - 1) (kappa - 1)) ->
  IZR (D (swap_i c s kappa)) <= theta * IZR (D s).

(** what [k] more swaps do to the measure *)
Definition swapped (s : ist) (q : cnt) (s' : ist) (q' : cnt) : Prop :=
  exists k : nat, (nbswaps q' = nbswaps q + Z.of_nat k)%Z /\ (0 < D s')%Z /\ (0 <= delta -> IZR (D s') <= delta ^ k * IZR (D s)).

Definition budget (s : ist) (kappa : nat) : Z := (2 * D s + (Z.of_nat d - Z.of_nat kappa) + 2)%Z.

Lemma nblov_dep q : nblov (inc_depth vb q) = nblov q.
Proof. unfold inc_depth. now destruct vb. Qed.

Lemma done_tail kappa s g s' g' : (kappa < d)%nat -> done (Pk kappa) kappa s g s' g' -> tail s' g' kappa = tail s g kappa.
Proof.
  intros Hk Dn. unfold tail. apply sumR_ext. intros i Hi. destruct (Nat.leb_spec kappa i); auto.
  now rewrite (dn_t _ _ _ _ _ _ _ _ Dn) by lia.
Qed.

Lemma loop_exact fuel : forall s g kappa pk p q,
  (1 <= kappa)%nat -> (kappa <= d \/ kappa = 1)%nat -> EI (lim kappa) s g -> Red delta (lim kappa) g -> prevE delta kappa pk p s g ->
  match hlll_loop_g fp c (hr_ref fp) fuel delta vb s g kappa pk p q with
  | Ok (rv, s', g', q') =>
      ((rv = 0%Z /\ ((2 <= d)%nat -> (nblov q' < cnblov_max c)%Z -> EI d s' g' /\ Red delta d g')) \/
       (rv = (-1)%Z /\ 1 < delta)) /\ swapped s q s' q'
  | UB => False
  | NoFuel => (forall x, Rabs x <= / 2 -> frnd fp x = 0) -> delta <= 1 -> (Z.of_nat fuel < budget s kappa)%Z /\
      forall K : nat, 0 < delta -> delta ^ K * IZR (D s) < 1 -> (Z.of_nat fuel < 2 * Z.of_nat K + (Z.of_nat d - Z.of_nat kappa) + 2)%Z
  end.
Proof.
  assert (FIN : forall (s : ist) (g : fst_ R) kappa (q : cnt), (1 <= kappa)%nat -> (kappa <= d \/ kappa = 1)%nat -> EI (lim kappa) s g -> Red delta (lim kappa) g ->
     negb ((kappa <? ckmax c)%nat && (nblov q <? cnblov_max c)%Z) = true ->
     (0 = 0)%Z /\ ((2 <= d)%nat -> (nblov (inc_depth vb q) < cnblov_max c)%Z -> EI d s g /\ Red delta d g)).
  { intros s g kappa q H1 Hk E Rd EN. split; [reflexivity|]. intros Hd Hb. rewrite nblov_dep in Hb. rewrite CK in EN.
    replace (nblov q <? cnblov_max c)%Z with true in EN by (symmetry; now apply Z.ltb_lt).
    rewrite andb_true_r in EN. apply negb_true_iff, Nat.ltb_ge in EN.
    assert (EK : lim kappa = d) by (unfold lim; destruct (Nat.eqb_spec kappa 1); lia). now rewrite EK in *. }
  assert (SW0 : forall s g kappa q s', EI (lim kappa) s g -> D s' = D s -> swapped s q s' (inc_depth vb q)).
  { intros s g kappa q s' E DE. exists 0%nat. split; [unfold inc_depth; destruct vb; cbn; lia|]. rewrite DE. split.
    - apply D_pos; apply E.
    - intros _. cbn. lra. }
  induction fuel as [|fuel IH]; intros s g kappa pk p q H1 HkD E Rd PR; cbn [hlll_loop_g];
    destruct (negb _) eqn:EN; try (split; [left; now apply (FIN s g kappa q)|now apply (SW0 s g kappa q)]).
  { intros _ _. apply negb_false_iff, andb_true_iff in EN as [EN _]. apply Nat.ltb_lt in EN. rewrite CK in EN.
    pose proof (D_pos s (ei_s _ _ _ _ _ E) (ei_i _ _ _ _ _ E)). unfold budget. split; [lia|]. intros; lia. }
  apply negb_false_iff, andb_true_iff in EN as [EN _]. apply Nat.ltb_lt in EN. rewrite CK in EN. rename EN into Hk.
  pose proof (D_pos s (ei_s _ _ _ _ _ E) (ei_i _ _ _ _ _ E)) as DP.
  destruct (enter_exact kappa s g E H1 Hk) as (g1 & -> & E1 & N1). cbn [bind].
  assert (Rd1 : Red delta kappa g1).
  { destruct (Nat.eq_dec kappa 1) as [K|K].
    - subst kappa. split; intros; [|lia]. replace j with 0%nat by lia. apply Pk0.
    - destruct (N1 K) as [NR NV]. unfold lim in Rd. replace (kappa =? 1)%nat with false in Rd by (symmetry; now apply Nat.eqb_neq).
      apply (Red_ext delta kappa g); auto. intros. now rewrite NR. }
  pose proof (reduce_ok (S fuel) s g1 kappa H1 Hk E1) as RX.
  destruct (reduce_g fp c (hr_ref fp) (S fuel) s g1 kappa) as [[[s2 g2] bad]| |] eqn:ER; cbn [bind].
  3:{ intros HH _. specialize (RX HH). unfold budget. split; [lia|]. intros; lia. }
  2:{ exact RX. }
  destruct RX as [-> Dn]. pose proof (dn_e _ _ _ _ _ _ _ _ Dn) as E2. pose proof (dn_c _ _ _ _ _ _ _ _ Dn) as C2.
  assert (DE : D s2 = D s) by (apply D_red; [apply E|apply E|apply Dn]).
  assert (Rd2 : Red delta kappa g2).
  { apply (Red_ext delta kappa g1); auto. intros i j Hij. apply (dn_R _ _ _ _ _ _ _ _ Dn). lia. }
  rewrite (lovasz_exact kappa s2 g2 delta E2 H1 Hk C2). cbn [bind].
  pose proof (done_tail kappa s g1 s2 g2 Hk Dn) as TT.
  unfold guard. replace (kappa <? d)%nat with true by (symmetry; now apply Nat.ltb_lt).
  destruct PR as (PL & PR1 & PR2).
  assert (RK1 : forall j, (1 <= j < kappa)%nat -> r g2 j j = r g j j).
  { intros j Hj. rewrite (dn_R _ _ _ _ _ _ _ _ Dn) by lia. destruct (N1 ltac:(lia)) as [NR _]. now rewrite NR. }
  destruct (fle fp _ _) eqn:LE.
  - apply (e_le fp X) in LE.
    destruct (hv_exact kappa s2 g2 E2 Hk C2 (dn_m _ _ _ _ _ _ _ _ Dn)) as (g3 & -> & E3 & R3 & T3 & V3 & _). cbn [bind].
    rewrite gR_ok by (pose proof (EI_ND fp c _ _ _ E2 Hk); lia). cbn [bind].
    match goal with |- context [if ?bb then _ else _] => destruct bb eqn:BB end.
    + split; [right|exact (SW0 s g kappa (inc_lov q) s2 E DE)]. split; [reflexivity|]. apply andb_true_iff in BB as [B1 B2]. apply Z.eqb_eq in B1.
      apply (e_lt fp X) in B2. rewrite (e_abs fp X) in B2.
      destruct (Rle_lt_dec delta 1) as [LD|LD]; [exfalso|exact LD].
      destruct (PR2 LD B1) as [P0 P1].
      assert (T1 : tail s2 g2 kappa <= nth kappa p fz * nth kappa p fz).
      { rewrite TT. destruct (Nat.eqb_spec kappa 1) as [K|K].
        - subst kappa. now rewrite tail_gram.
        - destruct (N1 K) as [_ NV]. unfold tail in *. now rewrite NV. }
      rewrite <- T3 in T1.
      assert (nth kappa p fz * nth kappa p fz < Rabs (r g3 kappa kappa) * Rabs (r g3 kappa kappa)).
      { apply Rmult_le_0_lt_compat; auto. }
      assert (Rabs (r g3 kappa kappa) * Rabs (r g3 kappa kappa) = r g3 kappa kappa * r g3 kappa kappa).
      { rewrite <- Rabs_mult. apply Rabs_right. pose proof (Rle_0_sqr (r g3 kappa kappa)). unfold Rsqr in *. lra. }
      lra.
    + set (g4 := set_desc _ g3).
      assert (E4 : EI (S kappa) s2 g4).
      { pose proof (ei_w _ _ _ _ _ E3) as [W1 W2 W3]. apply (EI_frame fp c (S kappa) s2 g3); auto. split; assumption. }
      assert (LK : lim (kappa + 1) = S kappa) by (unfold lim; destruct (Nat.eqb_spec (kappa + 1) 1); lia).
      specialize (IH s2 g4 (kappa + 1)%nat (Z.of_nat kappa) (lupd p kappa (fabs fp (r g3 kappa kappa))) (inc_lov q)).
      rewrite LK in IH.
      assert (RR : forall i j, (i <= j)%nat -> (j < S kappa)%nat -> r g4 i j = if ((i =? kappa)%nat && (j =? kappa)%nat)%bool then r g3 kappa kappa else r g2 i j).
      { intros i j Hi Hj. change (r g4 i j) with (r g3 i j).
        destruct (Nat.eqb_spec i kappa) as [->|Ni]; destruct (Nat.eqb_spec j kappa) as [->|Nj]; cbn [andb]; auto; apply R3; lia. }
      assert (IH' := IH ltac:(lia) ltac:(lia) E4). clear IH. clearbody g4.
      assert (Rd4 : Red delta (S kappa) g4).
      { destruct Rd2 as [A B]. split.
        - intros j Hj. apply (Pk_ext j g2).
          + intros i l Hil N. rewrite RR by lia. destruct (Nat.eqb_spec i kappa), (Nat.eqb_spec l kappa); cbn [andb]; auto. exfalso. lia.
          + destruct (Nat.eq_dec j kappa) as [->|Nj]; [apply (dn_r _ _ _ _ _ _ _ _ Dn)|apply A; lia].
        - intros i Hi. rewrite !RR by lia. replace (i =? kappa)%nat with false by (symmetry; apply Nat.eqb_neq; lia). cbn [andb].
          destruct (Nat.eqb_spec (S i) kappa) as [Ei|Ni].
          + cbn [andb]. rewrite T3. replace i with (kappa - 1)%nat in * by lia. replace (S (kappa - 1)) with kappa in * by lia. lra.
          + cbn [andb]. apply B. lia. }
      specialize (IH' Rd4).
      assert (PR4 : prevE delta (kappa + 1) (Z.of_nat kappa) (lupd p kappa (fabs fp (r g3 kappa kappa))) s2 g4).
      { split; [now rewrite lupd_length|]. split.
        - intros j Hj. rewrite RR by lia. destruct (Nat.eqb_spec j kappa) as [->|Nj]; cbn [andb].
          + rewrite nth_lupd_eq by lia. now rewrite (e_abs fp X).
          + rewrite nth_lupd_neq by assumption. rewrite PR1, RK1 by lia. reflexivity.
        - intros _ HH. lia. }
      specialize (IH' PR4).
      destruct (hlll_loop_g _ _ _ _ _ _ _ _ _ _ _ _) as [[[[rv s5] g5] q5]| |]; auto.
      { destruct IH' as [IH' (k & K1 & K2 & K3)]. split; [exact IH'|]. exists k. rewrite <- DE. auto. }
      intros HH HD. destruct (IH' HH HD) as (IA & IB). unfold budget in *. rewrite DE in IA, IB. split; [lia|].
      intros K0 D0 DK. specialize (IB K0 D0 DK). lia.
  - assert (LT : tail s2 g2 kappa + r g2 (kappa - 1) kappa * r g2 (kappa - 1) kappa < delta * (r g2 (kappa - 1) (kappa - 1) * r g2 (kappa - 1) (kappa - 1))).
    { apply Rnot_le_lt. intros Q. apply (e_le fp X) in Q. congruence. }
    pose proof (swap_EI kappa s2 g2 E2 H1 Hk) as E5.
    set (s5 := swap_i c s2 kappa) in *. set (g5 := swap_f fp g2 kappa) in *.
    assert (LL : (lim (max (kappa - 1) 1) <= kappa - 1)%nat) by (unfold lim; destruct (Nat.eqb_spec (max (kappa - 1) 1) 1); lia).
    assert (E6 : EI (lim (max (kappa - 1) 1)) s5 g5).
    { destruct E5 as [A1 A2 A3 A4 A5]. split; auto; intros; [apply A4|apply A5]; lia. }
    specialize (IH s5 g5 (max (kappa - 1) 1) (Z.of_nat kappa) p (inc_swap (inc_lov q)) ltac:(lia) ltac:(lia) E6).
    assert (Rd5 : Red delta (lim (max (kappa - 1) 1)) g5).
    { apply (Red_le delta kappa); [lia|]. apply (Red_ext delta kappa g2); auto. }
    specialize (IH Rd5).
    assert (PR5 : prevE delta (max (kappa - 1) 1) (Z.of_nat kappa) p s5 g5).
    { split; [exact PL|]. split.
      - intros j Hj. change (r g5 j j) with (r g2 j j). rewrite RK1 by lia. apply PR1. lia.
      - intros LD PK. assert (K2 : (2 <= kappa)%nat) by lia.
        replace (max (kappa - 1) 1) with (kappa - 1)%nat in * by lia.
        rewrite PR1, <- RK1 by lia. split; [apply Rabs_pos|].
        rewrite <- Rabs_mult, Rabs_right by (pose proof (Rle_0_sqr (r g2 (kappa - 1) (kappa - 1))); unfold Rsqr in *; lra).
        assert (TL : tail s5 g5 (kappa - 1) = tail s2 g2 kappa + r g2 (kappa - 1) kappa * r g2 (kappa - 1) kappa).
        { pose proof (EI_ND fp c _ _ _ E2 Hk) as ND. pose proof (g_gt c s2 (ei_s _ _ _ _ _ E2) kappa Hk) as GT.
          unfold tail. change (V g5) with (V g2).
          assert (Eb : b s5 (kappa - 1) = b s2 kappa).
          { unfold s5. rewrite swap_b by (auto; apply E2). now rewrite Nat.eqb_refl. }
          rewrite Eb.
          assert (HB : forall i, (i < n)%nat -> (kappa - 1 < i)%nat ->
             True) by auto. clear HB.
          (* the reflector kappa-1 preserves the length of the rows >= kappa-1 *)
          set (w := Hs n (V g2) (kappa - 1) (b s2 kappa)).
          assert (EW : Hs n (V g2) kappa (b s2 kappa) = refl n (V g2) (kappa - 1) w).
          { unfold w. replace kappa with (S (kappa - 1)) at 1 by lia. reflexivity. }
          assert (RT : r g2 (kappa - 1) kappa = refl n (V g2) (kappa - 1) w (kappa - 1)%nat).
          { rewrite <- EW, (C2 (kappa - 1)%nat) by lia.
            now replace (kappa - 1 <? Sj s2 kappa)%nat with true by (symmetry; apply Nat.ltb_lt; lia). }
          rewrite EW, RT.
          pose proof (refl_dot n (V g2) (kappa - 1) w w (proj1 (ei_v _ _ _ _ _ E2 (kappa - 1)%nat ltac:(lia)))) as RD.
          set (w' := refl n (V g2) (kappa - 1) w) in *.
          assert (SP : forall v : nat -> R, dot n v v = sumR n (fun i => if (i <? kappa - 1)%nat then v i * v i else 0) +
             sumR n (fun i => if (kappa - 1 <=? i)%nat then v i * v i else 0)).
          { intros v. rewrite <- sumR_plus. apply sumR_ext. intros i Hi.
            destruct (Nat.ltb_spec i (kappa - 1)), (Nat.leb_spec (kappa - 1) i); try lia; ring. }
          rewrite !SP in RD.
          assert (LO : sumR n (fun i => if (i <? kappa - 1)%nat then w' i * w' i else 0) = sumR n (fun i => if (i <? kappa - 1)%nat then w i * w i else 0)).
          { apply sumR_ext. intros i Hi. destruct (Nat.ltb_spec i (kappa - 1)); auto. unfold w'. now rewrite refl_below. }
          rewrite LO in RD. apply Rplus_eq_reg_l in RD. rewrite <- RD.
          rewrite (sumR_ext n (fun i => if (kappa - 1 <=? i)%nat then w' i * w' i else 0)
             (fun i => (if (kappa <=? i)%nat then w' i * w' i else 0) + (if (i =? kappa - 1)%nat then w' i * w' i else 0))).
          - rewrite sumR_plus. f_equal. rewrite (sumR_single n (kappa - 1)); [now rewrite Nat.eqb_refl|lia|].
            intros i Hi Ni. apply Nat.eqb_neq in Ni. now rewrite Ni.
          - intros i Hi. destruct (Nat.leb_spec (kappa - 1) i), (Nat.leb_spec kappa i), (Nat.eqb_spec i (kappa - 1)); try lia; ring. }
        assert (Q : tail s5 g5 (kappa - 1) <= r g2 (kappa - 1) (kappa - 1) * r g2 (kappa - 1) (kappa - 1)).
        { rewrite TL. pose proof (Rle_0_sqr (r g2 (kappa - 1) (kappa - 1))). unfold Rsqr in *. nra. }
        destruct (Nat.eqb_spec (kappa - 1) 1) as [K|K]; [|exact Q].
        rewrite <- (tail_gram s5 g5); [|rewrite <- K; exact E5|lia]. now rewrite <- K at 1. }
    specialize (IH PR5).
    destruct (hlll_loop_g _ _ _ _ _ _ _ _ _ _ _ _) as [[[[rv s6] g6] q6]| |]; auto.
    { destruct IH as [IH (k & K1 & K2 & K3)]. split; [exact IH|]. exists (S k). cbn [inc_swap nbswaps inc_lov] in K1.
      split; [lia|]. split; [exact K2|]. intros HD. specialize (K3 HD). rewrite <- DE.
      pose proof (D_ratio delta kappa s2 g2 E2 C2 H1 Hk ltac:(lra)) as DR. fold s5 in DR.
      pose proof (pow_le delta k HD) as PK. cbn [pow].
      apply Rle_trans with (delta ^ k * IZR (D s5)); [exact K3|].
      apply Rle_trans with (delta ^ k * (delta * IZR (D s2))); [now apply Rmult_le_compat_l|]. lra. }
    intros HH HD. destruct (IH HH HD) as (IA & IB). clear IH.
    assert (DL : (D s5 < D s2)%Z).
    { apply (D_swap kappa s2 g2); auto. pose proof (Rle_0_sqr (r g2 (kappa - 1) (kappa - 1))). unfold Rsqr in *. nra. }
    unfold budget in *. split; [lia|]. intros K0 D0 DK.
    pose proof (D_ratio delta kappa s2 g2 E2 C2 H1 Hk ltac:(lra)) as DR. fold s5 in DR.
    destruct K0 as [|K0]; [exfalso; cbn [pow] in DK; assert (1 <= IZR (D s)) by (apply IZR_le; lia); lra|].
    specialize (IB K0 D0). cbn [pow] in DK. pose proof (pow_lt delta K0 D0) as PK.
    assert (delta ^ K0 * IZR (D s5) < 1); [|specialize (IB H); lia].
    apply Rle_lt_trans with (2 := DK). rewrite <- DE. apply Rle_trans with (delta ^ K0 * (delta * IZR (D s2))); [apply Rmult_le_compat_l; lra|lra].
Qed.

End Loop.
