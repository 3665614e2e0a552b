(** * hlll over machine integers, exact floating-point arithmetic: no operation overflows *)
From Coq Require Import ZArith Lia Reals Lra List Bool Arith.
From Verif Require Import Base Spec Mat FP Hlll IntSteps HlllInt Structure Object Safety SpecReal Det Fresh Cache Cache2 Cache3 Cache4 Cache5 Cache6
  Exact HHMath ExactLoop ExactLoop2 ExactPot ExactTop LcondFacts Machine MachRef Growth.
Import ListNotations.

Lemma mzip_ok fm f ibeg l w v : forall k,
  (forall i, i < length v -> ibeg <= k + i < ibeg + l -> fm (nth i v 0%Z) (nth (k + i) w 0%Z) = Ok (f (nth i v 0%Z) (nth (k + i) w 0%Z))) ->
  mzip fm ibeg l k v w =
  Ok (imap_from k (fun i x => if ((ibeg <=? i) && (i <? ibeg + l))%bool then f x (nth i w 0%Z) else x) v).
Proof.
  induction v as [|x v IH]; intros k H; cbn [mzip imap_from]; [reflexivity|].
  assert (E : (if ((ibeg <=? k) && (k <? ibeg + l))%bool then fm x (nth k w 0%Z) else Ok x) =
              Ok (if ((ibeg <=? k) && (k <? ibeg + l))%bool then f x (nth k w 0%Z) else x)).
  { destruct (Nat.leb_spec ibeg k), (Nat.ltb_spec k (ibeg + l)); cbn [andb]; auto.
    pose proof (H 0%nat ltac:(cbn; lia) ltac:(lia)) as Q. cbn [nth] in Q. now rewrite Nat.add_0_r in Q. }
  rewrite E. cbn [bind]. rewrite IH; [reflexivity|].
  intros i Hi Hr. pose proof (H (S i) ltac:(cbn; lia) ltac:(lia)) as Q. cbn [nth] in Q. now replace (k + S i) with (S k + i) in Q by lia.
Qed.

Section Mach.
Variable fp : fpops R.
Hypothesis X : exact fp.
Variable c : cfg.
Notation n := (cn c).
Notation d := (cd c).
Notation fz := (fzero fp).
Notation Sj s j := (nth j (iS s) 0%nat).
Notation b s j := (bval fp s j).
Notation V g := (Vf fp g).
Notation r g i j := (mget fz (fR g) i j).
Notation sgood := (sgood c).
Notation EI := (EI fp c).
Notation cur := (cur fp c).
Notation tail := (tail fp c).
Notation Red := (Red fp (sizered_col fp)).
Notation hr := (householder_r fp c).

Variable zt : zty.
Variable XB : Z.
Hypothesis FA : faithful zt XB.
Hypothesis NT : ctransf c = false.

Lemma col_nonzero s i : sgood s -> independent n d (fn (iB s)) -> i < d -> exists l, l < Sj s i /\ fn (iB s) l i <> 0%Z.
Proof.
  intros G I Hi.
  assert (D : (forall l, l < Sj s i -> fn (iB s) l i = 0%Z) \/ exists l, l < Sj s i /\ fn (iB s) l i <> 0%Z).
  { induction (Sj s i) as [|k [IH|(l & Hl & E)]].
    - left. intros; lia.
    - destruct (Z.eq_dec (fn (iB s) k i) 0) as [E|E].
      + left. intros l Hl. destruct (Nat.eq_dec l k) as [->|]; auto. apply IH. lia.
      + right. exists k. auto.
    - right. exists l. auto. }
  destruct D as [D|D]; [exfalso|exact D].
  specialize (I (fun j => if j =? i then 1%Z else 0%Z)).
  assert (H : (if i =? i then 1%Z else 0%Z) = 0%Z); [|rewrite Nat.eqb_refl in H; discriminate].
  apply I; auto. intros l Hl. rewrite (sumZ_single d i); auto.
  - rewrite Nat.eqb_refl. destruct (Nat.lt_ge_cases l (Sj s i)).
    + now rewrite D.
    + rewrite (b_zero c s (g_bok c s G) i Hi l) by lia. reflexivity.
  - intros j Hj N. apply Nat.eqb_neq in N. rewrite N. ring.
Qed.

Lemma bop_mach k lx ex v w : (k = lx * 2 ^ ex)%Z -> (0 <= ex)%Z -> (k <> 0)%Z -> (Z.abs k <= XB)%Z -> (Z.abs (k * w) <= XB)%Z ->
  (Z.abs (v - k * w) <= XB)%Z ->
  forall xz, setf_m fp c zt lx ex (IZR k) = Ok xz -> bop_m c zt lx ex xz v w = Ok (bop c lx ex (fset_f fp (IZR k)) v w).
Proof.
  intros E Hex Nk Ak Akw Ar xz Hxz. rewrite (e_setf fp X). unfold setf_m in Hxz. unfold bop_m, bop.
  assert (P2 : (0 < 2 ^ ex)%Z) by (apply Z.pow_pos_nonneg; lia).
  destruct (Z.eqb_spec ex 0) as [E0|N0].
  - subst ex. rewrite Z.mul_1_r in E. subst lx.
    destruct (Z.eqb_spec k 1) as [->|N1]; [apply (fa_res _ _ FA); replace (v - w)%Z with (v - 1 * w)%Z by ring; assumption|].
    destruct (Z.eqb_spec k (-1)) as [->|N2]; [apply (fa_res _ _ FA); replace (v + w)%Z with (v - (-1) * w)%Z by ring; assumption|].
    cbn [andb orb] in Hxz. destruct (clong c).
    + rewrite (fa_res _ _ FA) by (rewrite Z.mul_opp_r, Z.abs_opp, Z.mul_comm; assumption). cbn [bind]. 
      apply (fa_res _ _ FA). replace (v + w * - k)%Z with (v - k * w)%Z by ring. assumption.
    + rewrite (e_setf fp X), (fa_res _ _ FA) in Hxz by assumption. injection Hxz as <-.
      rewrite (fa_res _ _ FA) by assumption. cbn [bind]. now apply (fa_res _ _ FA).
  - cbn [andb orb] in Hxz. destruct (clong c).
    + assert (L1 : (Z.abs (w * - lx * 2 ^ ex) <= XB)%Z) by (replace (w * - lx * 2 ^ ex)%Z with (- (k * w))%Z by (rewrite E; ring); now rewrite Z.abs_opp).
      rewrite (fa_res _ _ FA (w * - lx)%Z).
      2:{ rewrite Z.abs_mul, (Z.abs_eq (2 ^ ex)) in L1 by lia. nia. }
      cbn [bind]. rewrite (fa_shl _ _ FA); [|assumption| |assumption].
      2:{ rewrite E, Z.abs_mul, (Z.abs_eq (2 ^ ex)) in Ak by lia. assert (lx <> 0)%Z by (intros ->; lia). nia. }
      cbn [bind]. rewrite Z.shiftl_mul_pow2 by assumption. apply (fa_res _ _ FA).
      replace (v + w * - lx * 2 ^ ex)%Z with (v - k * w)%Z by (rewrite E; ring). assumption.
    + rewrite (e_setf fp X), (fa_res _ _ FA) in Hxz by assumption. injection Hxz as <-.
      rewrite (fa_res _ _ FA) by assumption. cbn [bind]. now apply (fa_res _ _ FA).
Qed.

(** entries of a column, with room for one operation *)
Definition small (s : ist) (kappa : nat) : Prop := forall l, l < n -> (2 * Z.abs (fn (iB s) l kappa) <= XB)%Z.

Lemma step_mach kappa i s f dn s' f' dn' : i < kappa -> kappa < d -> sgood s -> independent n d (fn (iB s)) ->
  size_update_step fp c kappa i (s, f, dn) = Ok (s', f', dn') -> small s kappa -> small s' kappa ->
  size_update_step_m fp c zt kappa i (s, f, dn) = Ok (s', f', dn').
Proof.
  intros Hi Hk G I Run Sm Sm'. unfold size_update_step_m, size_update_step in *.
  destruct (gR fp c (fR f) i kappa) as [rik| |]; try discriminate. destruct (gR fp c (fR f) i i) as [rii| |]; try discriminate.
  cbn [bind] in *. rewrite (e_div fp X) in *. destruct (e_rnd fp X (rik / rii)%R) as (k & Ek & _). rewrite Ek in *.
  destruct (fnz fp (IZR k)) eqn:NZ; [|exact Run].
  apply (e_nz fp X) in NZ. assert (Nk : k <> 0%Z) by (intros ->; now apply NZ). clear NZ Ek rik rii.
  pose proof (e_gse fp X k) as GE. pose proof (e_expo fp X (IZR k)) as GP.
  pose proof (bcoef_exact fp X c k) as BC.
  destruct (fgse fp (IZR k)) as [lx ex]. cbn [fst snd] in *.
  unfold guard in *. destruct (Sj s i <=? n) eqn:LE; [|exact Run]. apply Nat.leb_le in LE.
  rewrite NT in *. setf. injection Run as <- <- <-.
  assert (W : wfm n d (iB s)) by (apply bok_wfm, G).
  assert (NEW : forall l, l < Sj s i -> fn (colop 0%Z (bop c lx ex (fset_f fp (IZR k))) 0 (Sj s i) (iB s) kappa i) l kappa =
      (fn (iB s) l kappa - k * fn (iB s) l i)%Z).
  { intros l Hl. rewrite (colop_bop c lx ex) by assumption. rewrite BC. unfold fn.
    rewrite (mget_colop 0%Z _ n d) by (auto; lia). rewrite Nat.eqb_refl. cbn [Nat.leb andb Nat.add].
    replace (l <? Sj s i) with true by (symmetry; now apply Nat.ltb_lt). reflexivity. }
  unfold small in Sm'. cbn [iB] in Sm'.
  assert (PB : forall l, l < Sj s i -> (Z.abs (k * fn (iB s) l i) <= XB)%Z /\ (Z.abs (fn (iB s) l kappa - k * fn (iB s) l i) <= XB)%Z).
  { intros l Hl. pose proof (Sm l ltac:(lia)). pose proof (Sm' l ltac:(lia)) as Q. rewrite NEW in Q by assumption. lia. }
  assert (KB : (Z.abs k <= XB)%Z).
  { destruct (col_nonzero s i G I ltac:(lia)) as (l & Hl & E). pose proof (proj1 (PB l Hl)) as Q. rewrite Z.abs_mul in Q. nia. }
  assert (SF : exists xz, setf_m fp c zt lx ex (IZR k) = Ok xz).
  { unfold setf_m. destruct (_ || _)%bool; [eauto|]. rewrite (e_setf fp X), (fa_res _ _ FA) by assumption. eauto. }
  destruct SF as (xz & SF). rewrite SF. cbn [bind].
  assert (MC : mcolop (bop_m c zt lx ex xz) 0 (Sj s i) (iB s) kappa i =
     Ok (colop 0%Z (bop c lx ex (fset_f fp (IZR k))) 0 (Sj s i) (iB s) kappa i)).
  { unfold mcolop. rewrite (mzip_ok _ (bop c lx ex (fset_f fp (IZR k)))); [reflexivity|].
    intros l _ Hl. cbn [Nat.add] in *. destruct (PB l ltac:(lia)) as [P1 P2].
    apply (bop_mach k); auto. }
  rewrite MC. reflexivity.
Qed.

(** ** one pass *)
Variable M : R.
Hypothesis M0 : (0 <= M)%R.
Variable delta : R.
Hypothesis D7 : (7/10 <= delta)%R.
Notation N2 := (N2 c M).
Notation diagM := (diagM c M).
Hypothesis ROOM : (4 * (N2 * (25/4) ^ (d - 1)) <= IZR XB * IZR XB)%R.
Hypothesis XB0 : (0 <= XB)%Z.

Lemma small_of s kappa : 1 <= kappa -> kappa < d -> (dot n (b s kappa) (b s kappa) <= N2 * (25/4) ^ kappa)%R -> small s kappa.
Proof.
  intros H1 Hk H l Hl. apply le_IZR. rewrite mult_IZR, abs_IZR.
  assert (Q : (IZR (fn (iB s) l kappa) * IZR (fn (iB s) l kappa) <= dot n (b s kappa) (b s kappa))%R).
  { apply Rle_trans with (sumR n (fun i => if (i =? l)%nat then b s kappa i * b s kappa i else 0)%R).
    - rewrite (sumR_single n l) by (auto; intros i _ Ni; apply Nat.eqb_neq in Ni; now rewrite Ni).
      rewrite Nat.eqb_refl, (bval_IZR fp X). apply Rle_refl.
    - apply sumR_le. intros i _. destruct (i =? l); [apply Rle_refl|]. pose proof (Rle_0_sqr (b s kappa i)) as Z. unfold Rsqr in Z. exact Z. }
  assert (P : (N2 * (25/4) ^ kappa <= N2 * (25/4) ^ (d - 1))%R).
  { apply Rmult_le_compat_l.
    - unfold Growth.N2. apply Rmult_le_pos; [|assumption]. pose proof (pos_INR d). lra.
    - apply Rle_pow; [lra|lia]. }
  set (x := IZR (fn (iB s) l kappa)) in *.
  apply Rsqr_incr_0_var; [|now apply IZR_le]. unfold Rsqr.
  replace (2 * Rabs x * (2 * Rabs x))%R with (4 * (Rabs x * Rabs x))%R by ring. rewrite <- Rabs_mult, Rabs_right; [lra|].
  pose proof (Rle_0_sqr x) as Z. unfold Rsqr in Z. lra.
Qed.

Lemma pass_mach kappa s0 f0 g0 : 1 <= kappa -> kappa < d -> sgood s0 -> d <= n -> independent n d (fn (iB s0)) ->
  Red delta kappa g0 -> diagM (fn (iB s0)) ->
  forall m s f g dn, m <= kappa -> pinv fp c kappa m s0 g0 s g -> in3 fp c kappa s0 f0 g0 (s, f, dn) (s, g, dn) ->
  stage fp (sqrt N2) kappa m g ->
  mfold (size_update_step_m fp c zt kappa) (rev (seq 0 m)) (s, f, dn) =
  mfold (size_update_step fp c kappa) (rev (seq 0 m)) (s, f, dn).
Proof.
  intros H1 Hk G0 ND I0 Rd D0.
  assert (N20 : (0 <= N2)%R) by (unfold Growth.N2; apply Rmult_le_pos; [|assumption]; pose proof (pos_INR d); lra).
  assert (NN : (sqrt N2 * sqrt N2 = N2)%R) by (now apply sqrt_sqrt).
  assert (NP : (0 <= sqrt N2)%R) by apply sqrt_pos.
  induction m as [|m IH]; intros s f g dn Hm P I3 St; [reflexivity|].
  rewrite seq_down. cbn [mfold].
  destruct (step_inv fp X c kappa m s0 g0 s g dn Hm Hk P) as (s1 & g1 & dn1 & Eg & P1 & _).
  pose proof (size_update_step_sim fp c kappa s0 G0 Hk ND f0 g0 m (s, f, dn) (s, g, dn) ltac:(lia) I3) as RS.
  rewrite Eg in RS. destruct (size_update_step fp c kappa m (s, f, dn)) as [[[s1' f1] dn1']| |] eqn:Ef; cbn [rsim] in RS; try contradiction.
  pose proof RS as (Q1 & Q2 & _). cbn [fst snd] in Q1, Q2. subst s1' dn1'. cbn [bind].
  assert (DS : forall s', redto c s0 s' -> diagM (fn (iB s'))).
  { intros s' H'. now apply (diag_red fp X c M s0). }
  assert (Rdg : Red delta kappa g) by (apply (Red_ext fp (sizered_col fp) (sizered_ext fp) delta kappa g0); auto; intros i j Hij; apply (pi_R _ _ _ _ _ _ _ _ P); lia).
  destruct (EI_diag fp X c M kappa s g (pi_e _ _ _ _ _ _ _ _ P) (pi_c _ _ _ _ _ _ _ _ P) Hk (DS s (pi_i _ _ _ _ _ _ _ _ P))) as [Dg Tg].
  destruct (EI_diag fp X c M kappa s1 g1 (pi_e _ _ _ _ _ _ _ _ P1) (pi_c _ _ _ _ _ _ _ _ P1) Hk (DS s1 (pi_i _ _ _ _ _ _ _ _ P1))) as [Dg1 Tg1].
  assert (St1 : stage fp (sqrt N2) kappa m g1) by (eapply (stage_step fp X c M delta D7 (sqrt N2) NN NP M0); eauto).
  rewrite (step_mach kappa m s f dn s1 f1 dn1); auto.
  - cbn [bind]. apply (IH s1 f1 g1 dn1); auto. lia.
  - apply (pi_e _ _ _ _ _ _ _ _ P).
  - apply (pi_e _ _ _ _ _ _ _ _ P).
  - apply small_of; auto. eapply (stage_norm fp c M (sqrt N2) NN NP M0 kappa (S m) s g); auto; apply P.
  - apply small_of; auto. eapply (stage_norm fp c M (sqrt N2) NN NP M0 kappa m s1 g1); auto; try lia; apply P1.
Qed.

(** *** hsizereduce, single thread *)
Hypothesis ST : cS c = 1%nat.
Hypothesis SEY : (cseysen c < 1)%Z.

Lemma hs_pass_mach kappa s f g vx : 1 <= kappa -> kappa < d -> EI kappa s g -> cur s g kappa -> Red delta kappa g ->
  diagM (fn (iB s)) -> (dot n (b s kappa) (b s kappa) <= N2)%R ->
  Post fp c kappa s f -> relP fp c kappa s f g ->
  hs_pass_m fp c zt s f vx kappa (hs_start kappa 0) = hs_pass fp c s f vx kappa (hs_start kappa 0).
Proof.
  intros H1 Hk E C Rd D0 HN P R. pose proof (ei_s _ _ _ _ _ E) as G. pose proof (sgood_ND c s G ltac:(lia)) as ND.
  unfold hs_pass_m, hs_pass, hs_start. rewrite ST. cbn [Nat.eqb orb Nat.ltb Nat.leb].
  unfold size_update_m, size_update, down. rewrite Nat.sub_0_r. replace (S (kappa - 1)) with kappa by lia.
  rewrite (pass_mach kappa s f g H1 Hk G ND (ei_i _ _ _ _ _ E) Rd D0 kappa s f g false); auto.
  - now apply pinv_refl.
  - split; [reflexivity|]. split; [reflexivity|]. cbn [fst snd].
    destruct R as [R1 R2 R3 R4 R5 R6]. split; auto; try (now destruct f); try (now destruct g).
    + apply P.
    + apply R1.
    + apply bok_wfm, G.
  - apply (stage_init fp X c M (sqrt N2)) with (s := s); auto; [|apply sqrt_pos].
    apply sqrt_sqrt. unfold Growth.N2. apply Rmult_le_pos; [|assumption]. pose proof (pos_INR d). lra.
Qed.

Lemma hs_mach fuel : forall s f g vx pn kappa, 1 <= kappa -> kappa < d -> EI kappa s g -> cur s g kappa -> Red delta kappa g ->
  diagM (fn (iB s)) -> (dot n (b s kappa) (b s kappa) <= N2)%R -> length vx = n ->
  Post fp c kappa s f -> relP fp c kappa s f g ->
  hs_loop_m fp c zt fuel s f vx pn kappa (hs_start kappa 0) = hs_loop_g fp c hr fuel s f vx pn kappa (hs_start kappa 0).
Proof.
  induction fuel as [|fuel IH]; intros s f g vx pn kappa H1 Hk E C Rd D0 HN L P R; cbn [hs_loop_m hs_loop_g]; [reflexivity|].
  rewrite (hs_pass_mach kappa s f g vx H1 Hk E C Rd D0 HN P R).
  pose proof (ei_s _ _ _ _ _ E) as G. pose proof (sgood_ND c s G ltac:(lia)) as ND.
  assert (Hs : hs_start kappa 0 < kappa) by (unfold hs_start; cbn; lia).
  pose proof (hs_pass_sim fp c kappa s G Hk ND f g vx _ Hs (w_R c f (q_wf _ _ _ _ _ P)) (gw_R c g (rp_gwf _ _ _ _ _ _ R))
      (rp_R _ _ _ _ _ _ R) (rp_x _ _ _ _ _ _ R) L) as PS.
  destruct (hs_pass_exact fp X c ST kappa s g vx H1 Hk E C) as (s1 & g1 & dn & Eg & PI & _). rewrite Eg in PS.
  destruct (hs_pass fp c s f vx kappa _) as [[[[s1' f1] vx1] sd]| |] eqn:Ep; try contradiction.
  destruct PS as (E1 & E2 & L1 & E3 & In). cbn [fst snd] in *. subst vx1 sd s1'. cbn [bind].
  destruct dn; [|reflexivity].
  pose proof (Pre_after fp c kappa s f s1 f1 g g1 Hk P In) as P2.
  pose proof (rel0_after fp c kappa s f s1 f1 g g1 true Hk R In) as R2.
  pose proof (pi_e _ _ _ _ _ _ _ _ PI) as EI1. pose proof (ei_s _ _ _ _ _ EI1) as G1.
  destruct (proj1 (hr_sim_real fp c) kappa s1 _ _ G1 Hk P2 R2) as (f3 & EH & P3 & R3 & D3 & V3 & _ & _).
  rewrite EH. cbn [bind]. destruct (_ && _)%bool; [reflexivity|].
  set (g2 := set_kept (lupd (fkept g1) kappa false) g1) in *.
  assert (EI2 : EI kappa s1 g2).
  { pose proof (ei_w _ _ _ _ _ EI1) as [W1 W2 W3]. apply (EI_frame fp c kappa s1 g1); auto. split; assumption. }
  destruct (hr_cur fp X c kappa s1 g2 EI2 Hk) as (EI3 & C3 & M3 & _ & V3' & RR3).
  assert (D1 : diagM (fn (iB s1))) by (apply (diag_red fp X c M s); auto; [apply E|apply PI]).
  apply (IH s1 f3 (householder_ref fp s1 g2 kappa)); auto.
  - apply (Red_ext fp (sizered_col fp) (sizered_ext fp) delta kappa g); auto. intros i j Hij. rewrite RR3 by lia.
    apply (pi_R _ _ _ _ _ _ _ _ PI). lia.
  - apply (red_norm fp X c M kappa s1 g1); auto; apply PI.
Qed.

Lemma reduce_mach fuel s f g kappa : 1 <= kappa -> kappa < d -> EI kappa s g -> Red delta kappa g ->
  diagM (fn (iB s)) -> (dot n (b s kappa) (b s kappa) <= N2)%R -> Pre fp c kappa s f -> rel0 fp c kappa s f g ->
  reduce_m fp c zt fuel s f kappa = reduce_g fp c hr fuel s f kappa.
Proof.
  intros H1 Hk E Rd D0 HN P R. unfold reduce_m, reduce_g. replace (cseysen c <? 1)%Z with true by (symmetry; now apply Z.ltb_lt).
  unfold hsizereduce_m, hsizereduce_g. pose proof (ei_s _ _ _ _ _ E) as G.
  destruct (proj1 (hr_sim_real fp c) kappa s f g G Hk P R) as (f1 & EH & P1 & R1 & _). rewrite EH. cbn [bind].
  destruct (hr_cur fp X c kappa s g E Hk) as (E3 & C3 & M3 & _ & V3 & RR3).
  apply (hs_mach fuel s f1 (householder_ref fp s g kappa)); auto.
  - apply (Red_ext fp (sizered_col fp) (sizered_ext fp) delta kappa g); auto. intros i j Hij. apply RR3. lia.
  - apply repeat_length.
Qed.
End Mach.

(** * the main loop: bounds, and the machine run *)
Section Loop.
Variable fp : fpops R.
Hypothesis X : exact fp.
Variable c : cfg.
Notation n := (cn c).
Notation d := (cd c).
Notation fz := (fzero fp).
Notation Sj s j := (nth j (iS s) 0%nat).
Notation b s j := (bval fp s j).
Notation V g := (Vf fp g).
Notation r g i j := (mget fz (fR g) i j).
Notation sgood := (sgood c).
Notation EI := (EI fp c).
Notation cur := (cur fp c).
Notation tail := (tail fp c).
Notation Red := (Red fp (sizered_col fp)).
Notation hr := (householder_r fp c).
Variable M : R.
Hypothesis M0 : (0 <= M)%R.
Variable delta : R.
Hypothesis D1 : (delta <= 1)%R.
Hypothesis ST : cS c = 1%nat.
Hypothesis SEY : (cseysen c < 1)%Z.
Hypothesis CK : ckmax c = d.
Notation N2 := (N2 c M).
Notation diagM := (diagM c M).

Definition bnd (s : ist) : Prop :=
  diagM (fn (iB s)) /\ forall j, j < d -> (dot n (b s j) (b s j) <= N2)%R.

Lemma bnd_done kappa s g s' g' : sgood s -> independent n d (fn (iB s)) -> kappa < d -> bnd s ->
  done fp c (fun g => redd fp g 0 kappa) kappa s g s' g' -> bnd s'.
Proof.
  intros G I Hk [B1 B2] Dn. assert (D' : diagM (fn (iB s'))) by (apply (diag_red fp X c M s); auto; apply Dn).
  split; [exact D'|]. intros j Hj. destruct (Nat.eq_dec j kappa) as [->|N].
  - apply (red_norm fp X c M kappa s' g'); auto; apply Dn.
  - rewrite (bval_neq fp s' s kappa) by (auto; apply Dn). now apply B2.
Qed.

Definition mach (zt : zty) : Prop :=
  exists XB, faithful zt XB /\ ctransf c = false /\ (7/10 <= delta)%R /\ (0 <= XB)%Z /\
    (4 * (N2 * (25/4) ^ (d - 1)) <= IZR XB * IZR XB)%R.

Variable zt : zty.
Variable vb : bool.

Lemma loop_bound fuel : forall s f g kappa pk p q,
  1 <= kappa -> (kappa < d \/ kappa = d \/ kappa = 1) -> LI fp c kappa s f -> rel0 fp c (lim kappa) s f g ->
  EI (lim kappa) s g -> Red delta (lim kappa) g -> bnd s ->
  (forall rv s' f' q', hlll_loop_g fp c hr fuel delta vb s f kappa pk p q = Ok (rv, s', f', q') -> bnd s') /\
  (mach zt -> hlll_loop_m fp c zt fuel delta vb s f kappa pk p q = hlll_loop_g fp c hr fuel delta vb s f kappa pk p q).
Proof.
  induction fuel as [|fuel IH]; intros s f g kappa pk p q H1 HkD L R E Rd B; cbn [hlll_loop_g hlll_loop_m];
    destruct (negb _) eqn:EN;
    try (split; [intros rv s' f' q' H; injection H as <- <- <- <-; exact B|reflexivity]);
    try (split; [intros rv s' f' q' H; discriminate H|reflexivity]).
  apply negb_false_iff, andb_true_iff in EN as [EN _]. apply Nat.ltb_lt in EN. rewrite CK in EN. rename EN into Hk.
  pose proof (ei_s _ _ _ _ _ E) as G.
  destruct (enter_sim fp c hr (hr_sim_real fp c) kappa s f g G H1 Hk L R) as (f1 & g1 & Ef1 & Eg1 & P1 & R1 & D1').
  destruct (enter_exact fp X c kappa s g E H1 Hk) as (g1' & Eg1' & E1 & N1). rewrite Eg1 in Eg1'. injection Eg1' as <-.
  change (hlll_enter fp c s f kappa) with (hlll_enter_g fp c hr s f kappa). rewrite Ef1. cbn [bind].
  assert (Rd1 : Red delta kappa g1).
  { destruct (Nat.eq_dec kappa 1) as [K|K].
    - subst kappa. split; intros; [|lia]. replace j with 0%nat by lia. apply sizered_0.
    - destruct (N1 K) as [NR NV]. unfold lim in Rd. replace (kappa =? 1)%nat with false in Rd by (symmetry; now apply Nat.eqb_neq).
      apply (Red_ext fp (sizered_col fp) (sizered_ext fp) delta kappa g); auto. intros. now rewrite NR. }
  assert (RM : mach zt -> reduce_m fp c zt (S fuel) s f1 kappa = reduce_g fp c hr (S fuel) s f1 kappa).
  { intros (XB & Q1 & Q2 & Q3 & Q4 & Q5). apply (reduce_mach fp X c zt XB Q1 Q2 M M0 delta Q3 Q5 Q4 ST SEY (S fuel) s f1 g1 kappa); auto; apply B; exact Hk. }
  pose proof (reduce_sim fp c (e_expo fp X) hr (hr_sim_real fp c) (S fuel) s f1 g1 kappa G H1 Hk P1 R1) as RS.
  pose proof (reduce_exact fp X c ST (S fuel) s g1 kappa SEY H1 Hk E1) as RX.
  destruct (reduce_g fp c hr (S fuel) s f1 kappa) as [[[s2 f2] fl]| |] eqn:Er; cbn [bind].
  2:{ split; [discriminate|]. intros MM. rewrite (RM MM). reflexivity. }
  2:{ split; [discriminate|]. intros MM. rewrite (RM MM). reflexivity. }
  destruct (reduce_g fp c (hr_ref fp) (S fuel) s g1 kappa) as [[[s2' g2] fl']| |]; try contradiction.
  destruct RS as (A1 & A2 & A3 & A4 & A5 & A6 & A7 & A8). cbn [fst snd] in *. subst s2' fl'.
  destruct RX as [-> Dn].
  assert (B2 : bnd s2) by (apply (bnd_done kappa s g1 s2 g2); auto; apply E).
  pose proof (dn_e _ _ _ _ _ _ _ _ Dn) as E2. pose proof (dn_c _ _ _ _ _ _ _ _ Dn) as C2.
  assert (Rd2 : Red delta kappa g2).
  { apply (Red_ext fp (sizered_col fp) (sizered_ext fp) delta kappa g1); auto. intros i j Hij. apply (dn_R _ _ _ _ _ _ _ _ Dn). lia. }
  assert (LV : lovasz fp c delta s2 f2 kappa = lovasz fp c delta s2 g2 kappa).
  { apply (lovasz_agree fp c delta s2 f2 g2); auto; try apply A5. apply A4. }
  rewrite (lovasz_exact fp X c kappa s2 g2 delta E2 H1 Hk C2) in LV.
  assert (RM' : mach zt -> reduce_m fp c zt (S fuel) s f1 kappa = Ok (s2, f2, false)) by (intros MM; now rewrite RM).
  clear RM. rewrite LV. cbn [bind].
  assert (KD : (kappa <? d) = true) by (now apply Nat.ltb_lt).
  assert (HD2 : forall j, j < d -> j <> kappa -> nth j (fdesc f2) 0 = 0).
  { intros j Hj Nj. rewrite A6, D1'. now apply (l_desc _ _ _ _ _ L). }
  destruct (fle fp _ _) eqn:LE.
  - apply (e_le fp X) in LE.
    destruct (hv_exact fp X c kappa s2 g2 E2 Hk C2 (dn_m _ _ _ _ _ _ _ _ Dn)) as (g3x & Egx & E3 & R3 & T3 & V3 & _).
    destruct (householder_v_sim fp c kappa s2 f2 g2 A3 Hk (q_wf _ _ _ _ _ A4) A5 (q_nmax _ _ _ _ _ A4))
      as (f3 & g3 & R' & V' & Rg & Vg & Ef & Eg & Sf & Sg & R3' & W3 & HV1 & HV2).
    rewrite Eg in Egx. injection Egx as <-.
    assert (SIM : forall pk' p' q', 
      (forall rv s' f' q'', hlll_loop_g fp c hr fuel delta vb s2 (set_desc (if kappa =? 1 then lupd (lupd (fdesc f3) kappa 0) 0 0 else lupd (fdesc f3) kappa 0) f3) (kappa + 1) pk' p' q' = Ok (rv, s', f', q'') -> bnd s') /\
      (mach zt -> hlll_loop_m fp c zt fuel delta vb s2 (set_desc (if kappa =? 1 then lupd (lupd (fdesc f3) kappa 0) 0 0 else lupd (fdesc f3) kappa 0) f3) (kappa + 1) pk' p' q' =
                  hlll_loop_g fp c hr fuel delta vb s2 (set_desc (if kappa =? 1 then lupd (lupd (fdesc f3) kappa 0) 0 0 else lupd (fdesc f3) kappa 0) f3) (kappa + 1) pk' p' q')).
    { intros pk' p' q'. 
      assert (LK : lim (kappa + 1) = S kappa) by (unfold lim; destruct (Nat.eqb_spec (kappa + 1) 1); lia).
      apply (IH s2 _ g3); auto; try lia.
      - apply (up_inv fp c kappa s2 f2 f3 R' V'); auto.
      - rewrite LK. destruct R3' as [[B1' B2' B3'] RR RV Rx]. split; setf; auto. split; setf; auto.
      - now rewrite LK.
      - rewrite LK. clear SEY ST CK IH. remember (r g3 kappa kappa) as rkk eqn:EK.
        assert (RR : forall i j, (i <= j)%nat -> (j < S kappa)%nat -> r g3 i j = if ((i =? kappa)%nat && (j =? kappa)%nat)%bool then rkk else r g2 i j).
        { intros i j Hi Hj.
          destruct (Nat.eqb_spec i kappa) as [->|Ni]; destruct (Nat.eqb_spec j kappa) as [->|Nj]; cbn [andb]; auto; apply R3; lia. }
        destruct Rd2 as [A B']. split.
        + intros j Hj. apply (sizered_ext fp j g2).
          * intros i l Hil N. rewrite RR by lia. destruct (Nat.eqb_spec i kappa), (Nat.eqb_spec l kappa); cbn [andb]; auto. exfalso. lia.
          * destruct (Nat.eq_dec j kappa) as [->|Nj]; [apply (dn_r _ _ _ _ _ _ _ _ Dn)|apply A; lia].
        + intros i Hi. rewrite !RR by lia. replace (i =? kappa)%nat with false by (symmetry; apply Nat.eqb_neq; lia). cbn [andb].
          destruct (Nat.eqb_spec (S i) kappa) as [Ei|Ni].
          * cbn [andb]. rewrite T3. replace i with (kappa - 1)%nat in * by lia. replace (S (kappa - 1)) with kappa in * by lia. lra.
          * cbn [andb]. apply B'. lia. }
    split.
    + intros rv s' f' q' H. unfold guard in H. rewrite KD, Ef in H. cbn [bind] in H.
      destruct (gR fp c (fR f3) kappa kappa) as [rkk| |]; try discriminate. cbn [bind] in H.
      destruct (_ && _)%bool in H; [injection H as <- <- <- <-; exact B2|]. eapply (proj1 (SIM _ _ _)); exact H.
    + intros MM. rewrite (RM' MM). cbn [bind]. rewrite LV. cbn [bind]. rewrite (proj2 (e_le fp X _ _) LE).
      unfold guard. rewrite KD, Ef. cbn [bind]. destruct (gR fp c (fR f3) kappa kappa) as [rkk| |]; cbn [bind]; auto.
      destruct (_ && _)%bool; [reflexivity|]. now apply SIM.
  - assert (LT : (tail s2 g2 kappa + r g2 (kappa - 1) kappa * r g2 (kappa - 1) kappa < delta * (r g2 (kappa - 1) (kappa - 1) * r g2 (kappa - 1) (kappa - 1)))%R).
    { apply Rnot_le_lt. intros Q. apply (e_le fp X) in Q. congruence. }
    pose proof (swap_EI fp c kappa s2 g2 E2 H1 Hk) as E5.
    assert (LL : (lim (max (kappa - 1) 1) <= kappa - 1)%nat) by (unfold lim; destruct (Nat.eqb_spec (max (kappa - 1) 1) 1); lia).
    assert (B5 : bnd (swap_i c s2 kappa)).
    { destruct B2 as [BD BN]. split.
      - apply (diag_swap fp X c M kappa s2 g2); auto.
        pose proof (Rle_0_sqr (r g2 (kappa - 1) (kappa - 1))). unfold Rsqr in *. nra.
      - intros j Hj. rewrite (swap_b fp c) by auto. destruct (j =? kappa - 1); [now apply BN|]. destruct (j =? kappa); apply BN; lia. }
    assert (SIM := IH (swap_i c s2 kappa) (swap_f fp f2 kappa) (swap_f fp g2 kappa) (max (kappa - 1) 1) (Z.of_nat kappa) p (inc_swap (inc_lov q)) ltac:(lia) ltac:(lia)).
    assert (L5 : LI fp c (max (kappa - 1) 1) (swap_i c s2 kappa) (swap_f fp f2 kappa)) by (now apply down_inv).
    assert (R5 : rel0 fp c (lim (max (kappa - 1) 1)) (swap_i c s2 kappa) (swap_f fp f2 kappa) (swap_f fp g2 kappa)).
    { destruct A5 as [[B1 B2' B3] RR RV Rx Rn Rm]. split.
      * unfold swap_f. split; setf; auto. now rewrite !lupd_length.
      * intros j i Hj Hi. unfold lim in Hj. destruct (Nat.eqb_spec (max (kappa - 1) 1) 1) as [E0|E0]; [lia|].
        rewrite swap_S in Hi by auto. replace (j =? kappa - 1) with false in Hi by (symmetry; apply Nat.eqb_neq; lia).
        unfold swap_f. setf. apply RR; lia.
      * intros k i Hkk Hi. unfold lim in Hkk. destruct (Nat.eqb_spec (max (kappa - 1) 1) 1) as [E0|E0]; [lia|].
        change (Vf fp f2 i k = Vf fp g2 i k). apply RV; lia.
      * destruct Rx as [Rx|[Rx|Rx]]; [now left|right; now left|right; right]. exact Rx. }
    assert (E6 : EI (lim (max (kappa - 1) 1)) (swap_i c s2 kappa) (swap_f fp g2 kappa)).
    { destruct E5 as [Q1 Q2 Q3 Q4 Q5]. split; auto; intros; [apply Q4|apply Q5]; lia. }
    assert (Rd5 : Red delta (lim (max (kappa - 1) 1)) (swap_f fp g2 kappa)).
    { apply (Red_le fp (sizered_col fp) (sizered_ext fp) delta kappa); [lia|]. apply (Red_ext fp (sizered_col fp) (sizered_ext fp) delta kappa g2); auto. }
    specialize (SIM L5 R5 E6 Rd5 B5). destruct SIM as [I1 I2]. split.
    + intros rv s' f' q' H. unfold guard in H. rewrite KD in H. eapply I1; exact H.
    + intros MM. rewrite (RM' MM). cbn [bind]. rewrite LV. cbn [bind]. rewrite LE. unfold guard. rewrite KD. now apply I2.
Qed.
End Loop.

(** * from an object ready for hlll *)
Section Top.
Variable fp : fpops R.
Hypothesis X : exact fp.

Lemma bnd_init c (s : ist) (M : R) : (0 <= M)%R -> (forall j, j < cd c -> (dot (cn c) (bval fp s j) (bval fp s j) <= M)%R) -> bnd fp c M s.
Proof.
  intros M0 H. split.
  - intros rr (U & Dg & Gm) j Hj. pose proof (Gm j j Hj Hj) as E. specialize (H j Hj).
    assert (Q : (rr j j * rr j j <= sumR (cd c) (fun i => rr i j * rr i j))%R).
    { apply Rle_trans with (sumR (cd c) (fun i => if (i =? j)%nat then rr i j * rr i j else 0)%R).
      - rewrite (sumR_single (cd c) j) by (auto; intros i _ Ni; apply Nat.eqb_neq in Ni; now rewrite Ni).
        rewrite Nat.eqb_refl. apply Rle_refl.
      - apply sumR_le. intros i _. destruct (i =? j); [apply Rle_refl|]. apply Rle_0_sqr. }
    rewrite E, sumZ_IZR in Q. eapply Rle_trans; [exact Q|]. eapply Rle_trans; [|exact H]. apply Req_le. apply sumR_ext. intros i Hi.
    rewrite !bval_IZR by assumption. now rewrite mult_IZR.
  - intros j Hj. eapply Rle_trans; [now apply H|]. apply N2_M; [assumption|lia].
Qed.

Lemma hlll_bound L (M delta : R) zt vb fuel junk : ready fp L -> (0 <= M)%R -> (delta <= 1)%R -> cS (lcfg L) = 1 -> (cseysen (lcfg L) < 1)%Z ->
  independent (cn (lcfg L)) (cd (lcfg L)) (fn (iB (li L))) ->
  (forall j, j < cd (lcfg L) -> (dot (cn (lcfg L)) (bval fp (li L) j) (bval fp (li L) j) <= M)%R) ->
  (forall rv L', hlll fp fuel delta vb junk L = Ok (rv, L') -> lcfg L' = lcfg L /\ bnd fp (lcfg L) M (li L')) /\
  (mach (lcfg L) M delta zt -> hlll_m fp zt fuel delta vb junk L = hlll fp fuel delta vb junk L).
Proof.
  intros (CK & G & W & Z) M0 D1 ST SEY I HB. rewrite <- (hlll_g_real fp). unfold hlll_g, hlll_m. set (c := lcfg L) in *.
  set (q0 := if vb then _ else _).
  assert (E : EI fp c (lim 1) (li L) (hlll_reset c (lf L))).
  { rewrite lim1. split; auto; try (intros; lia). destruct W; split; assumption. }
  assert (Rd : Red fp (sizered_col fp) delta (lim 1) (hlll_reset c (lf L))) by (rewrite lim1; split; intros; lia).
  assert (LI0 : LI fp c 1 (li L) (hlll_reset c (lf L))).
  { split.
    + exact (fwf_reset _ _ W).
    + intros N; now contradiction N.
    + intros N; now contradiction N.
    + intros j Hj K. pose proof (w_kept _ _ W) as LK. cbn [set_nmax fkept] in LK. now apply reset_kept in K.
    + intros N; now contradiction N.
    + intros N; now contradiction N.
    + intros j Hj _. apply reset_desc.
    + destruct Z as [Z|[Z1 Z2]]; [now left|right]. split; [assumption|]. split; [exact Z2|].
      intros k i Hk. unfold lim in Hk. cbn in Hk. lia. }
  assert (R0 : rel0 fp c (lim 1) (li L) (hlll_reset c (lf L)) (hlll_reset c (lf L))).
  { split.
    - apply E.
    - intros j i Hj. unfold lim in Hj. cbn in Hj. lia.
    - intros k i Hk. unfold lim in Hk. cbn in Hk. lia.
    - right. right. reflexivity. }
  destruct (loop_bound fp X c M M0 delta D1 ST SEY CK zt vb fuel (li L) _ _ 1 (-1)%Z (repeat junk (cd c)) q0 ltac:(lia) ltac:(auto) LI0 R0 E Rd
     (bnd_init c (li L) M M0 HB)) as [H1 H2].
  split.
  - intros rv L' H. destruct (hlll_loop_g _ _ _ _ _ _ _ _ _ _ _ _) as [[[[r s] g] q]| |]; cbn [bind] in H; try discriminate.
    injection H as <- <-. cbn [li lcfg]. split; [reflexivity|]. now apply (H1 r s g q).
  - intros MM. now rewrite (H2 MM).
Qed.

End Top.
