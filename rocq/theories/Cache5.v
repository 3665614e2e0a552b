(** * Simulation of the main loop *)
From Coq Require Import ZArith Lia List Bool Arith.
From Verif Require Import Base Spec Mat FP Hlll IntSteps HlllInt Structure Object Safety Fresh Cache Cache2 Cache3 Cache4.
Import ListNotations.

Section Main.
Context {F : Type} (fp : fpops F) (c : cfg).
Notation n := (cn c).
Notation d := (cd c).
Notation fz := (fzero fp).
Notation fwf := (Safety.fwf c).
Notation Sj s j := (nth j (iS s) 0).
Notation sgood := (sgood c).
Notation Pre := (Pre fp c).
Notation Post := (Post fp c).
Notation agree := (agree fp).
Notation agreeV := (agreeV fp c).
Notation relx := (relx c).
Notation VRok := (VRok fp).
Notation colok := (colok fp).
Notation rel0 := (rel0 fp c).
Notation relP := (relP fp c).
Hypothesis EX : expo_nonneg fp.
Variable hr : ist -> fst_ F -> nat -> res (fst_ F).
Hypothesis HS : hr_sim fp c hr.

(** columns whose R and V data are current at the head of the loop *)
Definition lim (kappa : nat) : nat := if kappa =? 1 then 0 else kappa.

Record LI (kappa : nat) (s : ist) (f : fst_ F) : Prop := {
  l_wf : fwf (set_nmax 0 f);
  l_nm : kappa <> 1 -> fwf f;
  l_lo : kappa <> 1 -> forall j, j < kappa -> kept f j /\ (forall k, k < j -> VRok f s j (Sj s j) k);
  l_col : forall j, j < d -> kept f j -> colok f s j;
  l_hi : kappa <> 1 -> forall j, kappa <= j < d -> kept f j ->
           forall k, (Z.of_nat k < nth j (fkmin f) 0)%Z -> k < kappa -> VRok f s j (Sj s j) k;
  l_rk : kappa <> 1 -> kappa < d -> kept f kappa ->
           nth kappa (fdesc f) 0 = 0 \/ kappa <= nth kappa (fdesc f) 0 \/
           ((forall k, k < kappa -> VRok f s kappa (Sj s kappa) k) /\ Rkok fp f s kappa);
  l_desc : forall j, j < d -> j <> kappa -> nth j (fdesc f) 0 = 0;
  l_z : zalt fp c s f (lim kappa) }.

(** *** householder_v *)
Lemma householder_v_sim kappa s f g : sgood s -> kappa < d -> fwf f -> relP kappa s f g -> fnmax f = Sj s kappa ->
  exists f' g' R' V' Rg Vg, householder_v fp c f kappa = Ok f' /\ householder_v fp c g kappa = Ok g' /\
    f' = set_V V' (set_R R' f) /\ g' = set_V Vg (set_R Rg g) /\
    rel0 (S kappa) s f' g' /\ fwf f' /\
    (forall k i, k <> kappa -> Vf fp f' i k = Vf fp f i k) /\
    (forall i, Sj s kappa <= i < n -> Vf fp f' i kappa = fz).
Proof.
  intros G Hk W R Em.
  pose proof (sgood_ND c s G ltac:(lia)) as ND.
  pose proof (g_gt c s G kappa Hk) as G1. pose proof (g_le c s G kappa Hk) as G2.
  pose proof (householder_v_safe fp c ND f kappa W Hk) as SV.
  destruct R as [[A1 A2 A3] RR RV Rx Rn Rm].
  assert (Em' : fnmax g = Sj s kappa) by congruence.
  assert (WR : wfm n d (fR f)) by apply W. assert (WV : wfm n d (fV f)) by apply W.
  unfold householder_v in *. rewrite Em in *. rewrite Em'.
  assert (E0 : forall M, gR fp c M kappa kappa = Ok (mget fz M kappa kappa)).
  { intros M. unfold gR, guard. replace (kappa <? n) with true by (symmetry; apply Nat.ltb_lt; lia).
    replace (kappa <? d) with true by (symmetry; apply Nat.ltb_lt; lia). reflexivity. }
  assert (E1 : forall M : mat F, gcol c M kappa kappa = Ok (skipn kappa (col M kappa))).
  { intros M. unfold gcol, guard. replace (kappa <=? n) with true by (symmetry; apply Nat.leb_le; lia).
    replace (kappa <? d) with true by (symmetry; apply Nat.ltb_lt; lia). reflexivity. }
  rewrite !E0, !E1 in *. cbn [bind] in *.
  assert (E2 : Sj s kappa <=? n = true) by (apply Nat.leb_le; lia). rewrite E2 in *. unfold guard in *.
  unfold fp_norm, fp_norm_sq in *.
  assert (LF : length (col (fR f) kappa) = n) by (now apply (wfm_col n d)).
  assert (LG : length (col (fR g) kappa) = n) by (now apply (wfm_col n d)).
  rewrite !scalarprod_dotf in * by lia. cbn [bind] in *.
  rewrite (RR kappa kappa) in * by lia.
  assert (ED : dotf fp (fun i => nth i (col (fR f) kappa) fz) (fun i => nth i (col (fR f) kappa) fz) kappa (Sj s kappa) =
               dotf fp (fun i => nth i (col (fR g) kappa) fz) (fun i => nth i (col (fR g) kappa) fz) kappa (Sj s kappa)).
  { apply dotf_ext; [lia| |]; intros i Hi; apply (RR kappa i); lia. }
  rewrite ED in *.
  set (nr := fsqrt fp _) in *. set (w0 := mget fz (fR g) kappa kappa) in *.
  destruct (if fle fp fz w0 then _ else _) as [sg rkk]. setf.
  set (s2 := fsqrt fp (fmul fp sg (fadd fp w0 sg))) in *.
  match type of SV with safe _ (Ok (set_V (lupd _ _ ?v) (set_R ?r _))) => set (vn := v) in *; set (Rn' := r) in * end.
  match goal with |- context [Ok (set_V (lupd (fV g) kappa ?v) (set_R ?r g))] => set (vg := v); set (Rg' := r) end.
  assert (Lvn : length vn = n) by (unfold vn; now rewrite map_length, seq_length).
  assert (Lvg : length vg = n) by (unfold vg; now rewrite map_length, seq_length).
  do 6 eexists. split; [reflexivity|]. split; [reflexivity|]. split; [reflexivity|]. split; [reflexivity|].
  assert (GR : forall M i j, wfm n d M -> mget fz (mset M kappa kappa rkk) i j = if (i =? kappa) && (j =? kappa) then rkk else mget fz M i j).
  { intros M i j WM. apply (mget_mset fz n d); auto; lia. }
  assert (CV : forall (M : mat F) (v : list F) k, wfm n d M -> col (lupd M kappa v) k = if k =? kappa then v else col M k).
  { intros M v k WM. rewrite col_lupd, (wfm_length n d) by assumption.
    replace (kappa <? d) with true by (symmetry; apply Nat.ltb_lt; lia). now rewrite andb_true_r. }
  assert (Gvn : forall i, kappa <= i < n -> nth i vn fz = if i =? kappa then fdiv fp (fadd fp w0 sg) s2 else if Sj s kappa <=? i then fz else fdiv fp (mget fz (fR f) i kappa) s2).
  { intros i Hi. unfold vn. rewrite nth_map_seq by lia. cbn [Nat.add]. unfold Rn'. rewrite GR by assumption.
    destruct (Nat.eqb_spec i kappa) as [->|N]; auto. cbn [andb]. destruct (Sj s kappa <=? i); auto.
    replace (kappa <? i) with true by (symmetry; apply Nat.ltb_lt; lia). reflexivity. }
  assert (Gvg : forall i, kappa <= i < n -> nth i vg fz = if i =? kappa then fdiv fp (fadd fp w0 sg) s2 else if Sj s kappa <=? i then fz else fdiv fp (mget fz (fR g) i kappa) s2).
  { intros i Hi. unfold vg. rewrite nth_map_seq by lia. cbn [Nat.add]. unfold Rg'. rewrite GR by assumption.
    destruct (Nat.eqb_spec i kappa) as [->|N]; auto. cbn [andb]. destruct (Sj s kappa <=? i); auto.
    replace (kappa <? i) with true by (symmetry; apply Nat.ltb_lt; lia). reflexivity. }
  split; [|split; [|split]].
  - split; setf.
    + split; setf; auto; [now apply wfm_mset|now apply wfm_lupd].
    + intros j i Hj Hi. unfold Rn', Rg'. rewrite !GR by assumption. destruct (_ && _)%bool; [reflexivity|now apply RR].
    + intros k i H1 H2. unfold Vf. setf. unfold mget. rewrite !CV by assumption.
      destruct (Nat.eqb_spec k kappa) as [->|N].
      * rewrite Gvn, Gvg by lia. destruct (Nat.eqb_spec i kappa); auto. destruct (Nat.leb_spec (Sj s kappa) i); auto.
        rewrite (RR kappa i) by lia. reflexivity.
      * apply RV; lia.
    + destruct Rx as [Rx|[Rx|Rx]]; [now left|right; now left|right; right]. exact Rx.
  - exact SV.
  - intros k i H. unfold Vf. setf. unfold mget. rewrite CV by assumption.
    replace (k =? kappa) with false by (symmetry; now apply Nat.eqb_neq). reflexivity.
  - intros i Hi. unfold Vf. setf. unfold mget. rewrite CV by assumption. rewrite Nat.eqb_refl.
    rewrite Gvn by lia. replace (i =? kappa) with false by (symmetry; apply Nat.eqb_neq; lia).
    replace (Sj s kappa <=? i) with true by (symmetry; apply Nat.leb_le; lia). reflexivity.
Qed.

Lemma VRok_V f f' s j m k : k < m -> (forall q i, q <= k -> Vf fp f' i q = Vf fp f i q) -> fVR f' = fVR f ->
  VRok f s j m k -> VRok f' s j m k.
Proof.
  intros Hk HV EV H. unfold Cache.VRok in *. rewrite EV, H. apply dotv_ext; auto.
  intros. symmetry. now apply HV.
Qed.

(** *** entering the body *)
Lemma enter_sim kappa s f g : sgood s -> 1 <= kappa -> kappa < d -> LI kappa s f -> rel0 (lim kappa) s f g ->
  exists f1 g1, hlll_enter_g fp c hr s f kappa = Ok f1 /\
    hlll_enter_g fp c (hr_ref fp) s g kappa = Ok g1 /\ Pre kappa s f1 /\ rel0 kappa s f1 g1 /\ fdesc f1 = fdesc f.
Proof.
  intros G H1 Hk L R. unfold hlll_enter_g. destruct (Nat.eqb_spec kappa 1) as [->|N].
  - set (f1 := set_kmin (map (fun z => Z.min z 0) (fkmin f)) f).
    set (g1 := set_kmin (map (fun z => Z.min z 0) (fkmin g)) g).
    pose proof (l_wf _ _ _ L) as W0.
    assert (Ekm : forall j, j < d -> nth j (fkmin f1) 0%Z = Z.min (nth j (fkmin f) 0%Z) 0).
    { intros j Hj. unfold f1. setf. rewrite nth_indep with (d' := Z.min 0%Z 0%Z).
      - apply (map_nth (fun z => Z.min z 0)).
      - rewrite map_length. pose proof (w_kmin _ _ W0) as E. setf. lia. }
    assert (C1 : forall j, j < d -> kept f1 j -> colok f1 s j).
    { intros j Hj K. destruct (l_col _ _ _ L j Hj K) as (B1 & B2 & B3). split; [exact B1|split; [exact B2|]].
      rewrite Ekm by assumption. lia. }
    assert (W1 : fwf (set_nmax 0 f1)).
    { destruct W0. unfold f1. split; setf; auto.
      - now rewrite map_length.
      - intros j Hj K. specialize (C1 j Hj K). destruct C1 as (_ & _ & C1). unfold f1 in C1. setf. lia. }
    (* householder_r overwrites nmaxkappa *)
    assert (P0 : Pre 0 s (set_nmax 0 f1)).
    { split; auto.
      - split.
        + intros; lia.
        + intros j Hj K. destruct (C1 j ltac:(lia) K) as (_ & _ & Q). setf. rewrite Ekm in * by lia.
          split; [lia|]. intros k Hkk. lia.
        + intros j Hj _ K. exact (C1 j Hj K).
      - pose proof (l_z _ _ _ L) as Z. unfold zalt in *. setf. exact Z.
      - intros K. split; [exact (C1 0 ltac:(lia) K)|]. split.
        + intros k Hkk. destruct (C1 0 ltac:(lia) K) as (_ & _ & Q). setf. lia.
        + right. right. split; [intros; lia|]. intros k i Hki; lia. }
    assert (R0 : rel0 0 s (set_nmax 0 f1) g1).
    { destruct R as [[A1 A2 A3] RR RV Rx]. split; setf.
      - split; setf; auto.
      - intros j i Hj. lia.
      - intros k i Hki. lia.
      - exact Rx. }
    destruct (proj1 HS 0 s _ _ G ltac:(lia) P0 R0) as (f2 & E & P2 & R2 & D2 & V2 & KM2 & KP2).
    assert (E' : hr s f1 0 = Ok f2).
    { rewrite <- E. symmetry. apply (proj2 HS). }
    rewrite E'. cbn [bind hr_ref].
    destruct (householder_v_sim 0 s f2 _ G ltac:(lia) (q_wf _ _ _ _ _ P2) R2 (q_nmax _ _ _ _ _ P2))
      as (f3 & g3 & R' & V' & Rg & Vg & Ef & Eg & Sf & Sg & R3 & W3 & HV1 & HV2).
    exists f3, g3. split; [exact Ef|]. split; [exact Eg|]. split; [|split; [exact R3|]].
    2:{ rewrite Sf. setf. rewrite D2. reflexivity. }
    assert (KM3 : forall j, j < d -> 1 <= j -> nth j (fkmin f3) 0%Z = Z.min (nth j (fkmin f) 0%Z) 0).
    { intros j Hj Hj1. rewrite Sf. setf. rewrite KM2, nth_lupd_neq by lia. now apply Ekm. }
    assert (C3 : forall j, j < d -> kept f3 j -> colok f3 s j).
    { intros j Hj K. rewrite Sf in K. unfold kept in K. setf.
      assert (colok f2 s j) as CC.
      { destruct (Nat.eq_dec j 0) as [->|Nj]; [apply (q_col _ _ _ _ _ P2)|]. apply (o_col _ _ _ _ _ (q_oth _ _ _ _ _ P2)); auto. }
      rewrite Sf. exact CC. }
    split; auto.
    + split.
      * intros j Hj. assert (j = 0) as -> by lia. split; [|intros; lia].
        rewrite Sf. unfold kept. setf. apply (q_kept _ _ _ _ _ P2).
      * intros j Hj K. destruct (C3 j ltac:(lia) K) as (_ & _ & Q). rewrite KM3 in * by lia. split; [lia|].
        intros k Hkk. lia.
      * intros j Hj _ K. now apply C3.
    + destruct (q_z _ _ _ _ _ P2) as [Z|(Z1 & Z2 & Z3)]; [now left|right]. split; [exact Z1|]. split.
      * rewrite Sf. setf. exact Z2.
      * intros k i Hkk Hi. assert (k = 0) as -> by lia. now apply HV2.
    + intros K. pose proof (C3 1 ltac:(lia) K) as CC. split; [exact CC|]. split.
      * intros k Hkk. destruct CC as (_ & _ & Q). rewrite KM3 in * by lia. lia.
      * rewrite Sf. setf. rewrite D2. setf. unfold f1. setf. destruct (nth 1 (fdesc f) 0); [now left|right; left; lia].
  - pose proof (l_nm _ _ _ L N) as W.
    unfold lim in *. replace (kappa =? 1) with false in R by (symmetry; now apply Nat.eqb_neq).
    eexists _, _. split; [reflexivity|]. split; [reflexivity|]. split; [|split; [|reflexivity]].
    2:{ destruct R as [[A1 A2 A3] RR RV Rx]. split; auto. split; auto. }
    set (f1 := set_kmin _ f).
    assert (Ekm : forall j, j < d -> nth j (fkmin f1) 0%Z = if kappa <? j then Z.min (nth j (fkmin f) 0%Z) (Z.of_nat kappa) else nth j (fkmin f) 0%Z).
    { intros j Hj. unfold f1. setf. rewrite nth_imap with (da := 0%Z); auto. rewrite (w_kmin _ _ W). lia. }
    assert (C1 : forall j, j < d -> kept f1 j -> colok f1 s j).
    { intros j Hj K. destruct (l_col _ _ _ L j Hj K) as (B1 & B2 & B3). split; [exact B1|split; [exact B2|]].
      rewrite Ekm by assumption. destruct (Nat.ltb_spec kappa j); lia. }
    split.
    + destruct W. unfold f1. split; setf; auto.
      * now rewrite imap_length.
      * intros j Hj K. destruct (C1 j Hj K) as (_ & _ & Q). unfold f1 in Q. setf. lia.
    + split.
      * intros j Hj. exact (l_lo _ _ _ L N j Hj).
      * intros j Hj K. rewrite Ekm by lia. replace (kappa <? j) with true by (symmetry; apply Nat.ltb_lt; lia).
        split; [lia|]. intros k Hkk. apply (l_hi _ _ _ L N j ltac:(lia) K k); lia.
      * intros j Hj _ K. now apply C1.
    + pose proof (l_z _ _ _ L) as Z. unfold lim in Z. replace (kappa =? 1) with false in Z by (symmetry; now apply Nat.eqb_neq). exact Z.
    + intros K. pose proof (C1 kappa Hk K) as CC. split; [exact CC|]. split.
      * intros k Hkk. destruct CC as (_ & _ & Q). rewrite Ekm in * by lia. rewrite Nat.ltb_irrefl in *.
        apply (l_hi _ _ _ L N kappa ltac:(lia) K k); lia.
      * exact (l_rk _ _ _ L N Hk K).
Qed.

(** *** going up *)
Lemma up_inv kappa s f f3 R' V' : sgood s -> 1 <= kappa -> kappa < d -> Post kappa s f ->
  f3 = set_V V' (set_R R' f) -> fwf f3 ->
  (forall k i, k <> kappa -> Vf fp f3 i k = Vf fp f i k) ->
  (forall i, Sj s kappa <= i < n -> Vf fp f3 i kappa = fz) ->
  (forall j, j < d -> j <> kappa -> nth j (fdesc f) 0 = 0) ->
  LI (kappa + 1) s (set_desc (let desc1 := lupd (fdesc f3) kappa 0 in if kappa =? 1 then lupd desc1 0 0 else desc1) f3).
Proof.
  intros G H1 Hk P Sf W3 HV1 HV2 HD. cbn zeta.
  set (f4 := set_desc _ f3).
  assert (Ld : length (fdesc f3) = d) by apply W3.
  assert (D4 : forall j, j < d -> nth j (fdesc f4) 0 = 0).
  { intros j Hj. unfold f4. setf.
    assert (X : forall j, j < d -> nth j (lupd (fdesc f3) kappa 0) 0 = 0).
    { intros q Hq. rewrite nth_lupd, Ld. destruct (Nat.eqb_spec q kappa) as [->|Nq].
      - replace (kappa <? d) with true by (symmetry; now apply Nat.ltb_lt). reflexivity.
      - cbn [andb]. rewrite Sf. setf. now apply HD. }
    destruct (kappa =? 1); auto. rewrite nth_lupd. destruct (_ && _)%bool; auto. }
  assert (W4 : fwf f4).
  { apply fwf_desc; auto. destruct (kappa =? 1); now rewrite ?lupd_length. }
  assert (EVR : fVR f4 = fVR f) by (unfold f4; rewrite Sf; reflexivity).
  assert (HV4 : forall k i, k <> kappa -> Vf fp f4 i k = Vf fp f i k) by (intros; now apply HV1).
  assert (VV : forall j k, j < d -> k < kappa -> k < Sj s j -> VRok f s j (Sj s j) k -> VRok f4 s j (Sj s j) k).
  { intros j k Hj Hkk Hm. apply VRok_V; auto. intros q i Hq. apply HV4. lia. }
  assert (Hlt : forall j k, j < d -> k <= j -> k < Sj s j) by (intros j k Hj Hkj; pose proof (g_gt c s G j Hj); lia).
  assert (K4 : forall j, kept f4 j <-> kept f j) by (intros; unfold kept, f4; rewrite Sf; setf; tauto).
  assert (M4 : fkmin f4 = fkmin f) by (unfold f4; rewrite Sf; reflexivity).
  assert (C4 : forall j, j < d -> kept f j -> colok f4 s j).
  { intros j Hj K. assert (colok f s j) as CC.
    { destruct (Nat.eq_dec j kappa) as [->|Nj]; [apply (q_col _ _ _ _ _ P)|]. apply (o_col _ _ _ _ _ (q_oth _ _ _ _ _ P)); auto. }
    unfold f4. rewrite Sf. exact CC. }
  split.
  - apply fwf_nmax; [exact W4|lia].
  - intros _. exact W4.
  - intros _ j Hj. rewrite K4. destruct (Nat.eq_dec j kappa) as [->|Nj].
    + split; [apply (q_kept _ _ _ _ _ P)|]. intros k Hkk. apply VV; auto; [apply Hlt; lia|now apply (q_VR _ _ _ _ _ P)].
    + destruct (o_lo _ _ _ _ _ (q_oth _ _ _ _ _ P) j ltac:(lia)) as [A1 A2]. split; auto.
      intros k Hkk. apply VV; auto; try lia. apply Hlt; lia.
  - intros j Hj K. apply C4; auto. now apply K4.
  - intros _ j Hj K k Hkm Hkk. apply K4 in K. rewrite M4 in Hkm.
    destruct (o_hi _ _ _ _ _ (q_oth _ _ _ _ _ P) j ltac:(lia) K) as [A1 A2].
    apply VV; try lia; [apply Hlt; lia|now apply A2].
  - intros _ Hd _. left. apply D4. lia.
  - intros j Hj _. now apply D4.
  - unfold lim. replace (kappa + 1 =? 1) with false by (symmetry; apply Nat.eqb_neq; lia).
    destruct (q_z _ _ _ _ _ P) as [Z|(Z1 & Z2 & Z3)]; [now left|right]. split; [exact Z1|]. split.
    + unfold f4. rewrite Sf. exact Z2.
    + intros k i Hkk Hi. destruct (Nat.eq_dec k kappa) as [->|Nk].
      * now apply HV2.
      * rewrite HV4 by assumption. apply Z3; lia.
Qed.

(** *** going down *)
Lemma swap_S s kappa j : sgood s -> 1 <= kappa -> kappa < d ->
  Sj (swap_i c s kappa) j = if j =? kappa - 1 then Sj s kappa else Sj s j.
Proof.
  intros G H1 Hk. unfold swap_i. cbn [iS]. rewrite nth_lupd, (b_len c s (g_bok c s G)).
  replace (kappa - 1 <? d) with true by (symmetry; apply Nat.ltb_lt; lia). now rewrite andb_true_r.
Qed.

Lemma swap_sgood s kappa : sgood s -> 1 <= kappa -> kappa < d -> sgood (swap_i c s kappa).
Proof.
  intros G H1 Hk. split.
  - apply (isteps_bok c s); [|apply G]. apply Relation_Operators.rt_step. left. apply is_swap. lia.
  - intros j Hj. rewrite swap_S by assumption. pose proof (g_gt c s G kappa Hk). pose proof (g_gt c s G j Hj).
    destruct (Nat.eqb_spec j (kappa - 1)); lia.
  - intros j Hj. rewrite swap_S by assumption. pose proof (g_le c s G kappa Hk). pose proof (g_le c s G j Hj).
    destruct (Nat.eqb_spec j (kappa - 1)); lia.
Qed.

Lemma down_inv kappa s f : sgood s -> 1 <= kappa -> kappa < d -> Post kappa s f ->
  (forall j, j < d -> j <> kappa -> nth j (fdesc f) 0 = 0) ->
  LI (max (kappa - 1) 1) (swap_i c s kappa) (swap_f fp f kappa).
Proof.
  intros G H1 Hk P HD.
  pose proof (q_wf _ _ _ _ _ P) as W.
  pose proof (g_le c s G kappa Hk) as G2.
  pose proof (g_gt c s G (kappa - 1) ltac:(lia)) as G1.
  assert (Mono : Sj s (kappa - 1) <= Sj s kappa) by (apply (b_mono c s (g_bok c s G)); lia).
  set (s' := swap_i c s kappa). set (f' := swap_f fp f kappa).
  assert (ES : forall j, Sj s' j = if j =? kappa - 1 then Sj s kappa else Sj s j) by (intros; now apply swap_S).
  assert (ESk : Sj s' (kappa - 1) = Sj s kappa) by (rewrite ES, Nat.eqb_refl; reflexivity).
  assert (ESn : forall j, j <> kappa - 1 -> Sj s' j = Sj s j).
  { intros j Nj. rewrite ES. now replace (j =? kappa - 1) with false by (symmetry; now apply Nat.eqb_neq). }
  set (sg := fun j => if j =? kappa - 1 then kappa else if j =? kappa then kappa - 1 else j).
  assert (sg1 : sg (kappa - 1) = kappa) by (unfold sg; now rewrite Nat.eqb_refl).
  assert (sg2 : sg kappa = kappa - 1).
  { unfold sg. replace (kappa =? kappa - 1) with false by (symmetry; apply Nat.eqb_neq; lia). now rewrite Nat.eqb_refl. }
  assert (sg3 : forall j, j <> kappa - 1 -> j <> kappa -> sg j = j).
  { intros j N1 N2. unfold sg. apply Nat.eqb_neq in N1, N2. now rewrite N1, N2. }
  assert (Eb : forall j i, bval fp s' j i = bval fp s (sg j) i).
  { intros j i. unfold bval, s', swap_i. cbn [iB]. f_equal. unfold sg.
    rewrite (mget_colswap 0%Z n d) by (try apply (b_wf c s (g_bok c s G)); lia). reflexivity. }
  assert (Ebb : forall j, bval fp s' j = bval fp s (sg j)).
  { intros j. unfold bval, s', swap_i, mget. cbn [iB]. rewrite (col_colswap n d) by (try apply (b_wf c s (g_bok c s G)); lia). reflexivity. }
  assert (EBf : forall i j, mget fz (fBfp f') i j = mget fz (fBfp f) i (sg j)).
  { intros i j. unfold f', swap_f. setf. apply (mget_colswap fz n d); try lia. apply W. }
  assert (EVR : forall i j, mget fz (fVR f') i j = mget fz (fVR f) i (sg j)).
  { intros i j. unfold f', swap_f. setf. apply (mget_colswap fz d d); try lia. apply W. }
  assert (En : forall j, j < d -> nth j (fnB2 f') fz = nth (sg j) (fnB2 f) fz).
  { intros j Hj. unfold f', swap_f. setf. rewrite !nth_lupd, lupd_length, (w_nB2 _ _ W). unfold sg.
    replace (kappa - 1 <? d) with true by (symmetry; apply Nat.ltb_lt; lia).
    replace (kappa <? d) with true by (symmetry; apply Nat.ltb_lt; lia). rewrite !andb_true_r.
    destruct (j =? kappa - 1); auto. destruct (j =? kappa); auto. }
  assert (EV : Vf fp f' = Vf fp f) by reflexivity.
  assert (ERk : fRk f' = fRk f) by reflexivity.
  assert (EK : fkept f' = fkept f) by reflexivity.
  assert (EM : fkmin f' = fkmin f) by reflexivity.
  pose proof (q_oth _ _ _ _ _ P) as O.
  assert (Kk1 : kept f (kappa - 1)) by (apply (o_lo _ _ _ _ _ O); lia).
  pose proof (o_col _ _ _ _ _ O (kappa - 1) ltac:(lia) ltac:(lia) Kk1) as Ck1.
  pose proof (q_col _ _ _ _ _ P) as Ck.
  (* rows added to the column that moves up *)
  assert (ZB : forall i, Sj s (kappa - 1) <= i < Sj s kappa -> zero_laws fp ->
              bval fp s (kappa - 1) i = fz).
  { intros i Hi (Z0 & _). unfold bval.
    pose proof (b_zero c s (g_bok c s G) (kappa - 1) ltac:(lia)) as ZZ. unfold zero_from in ZZ.
    change (mget 0%Z (iB s) i (kappa - 1)) with (fn (iB s) i (kappa - 1)). rewrite ZZ by lia. exact Z0. }
  assert (Ldesc : length (fdesc f) = d) by apply W.
  assert (DD : forall j, j < d -> j <> max (kappa - 1) 1 -> nth j (fdesc f') 0 = 0).
  { intros j Hj Nj. unfold f', swap_f. setf. rewrite nth_lupd.
    destruct (Nat.eqb_spec j kappa) as [->|N2].
    - replace (kappa <? _) with true; [reflexivity|]. symmetry. apply Nat.ltb_lt.
      destruct (kappa =? 1); rewrite ?lupd_length; lia.
    - cbn [andb]. destruct (Nat.eqb_spec kappa 1) as [->|N3].
      + rewrite nth_lupd. destruct (_ && _)%bool; auto.
      + rewrite nth_lupd_neq by lia. now apply HD. }
  assert (W' : fwf f').
  { unfold f', swap_f. apply fwf_nB2; [|rewrite !lupd_length; apply W].
    apply fwf_VR; [|apply wfm_colswap; try apply W; lia].
    apply fwf_Bfp; [|apply wfm_colswap; try apply W; lia].
    apply fwf_desc; [assumption|]. destruct (kappa =? 1); rewrite !lupd_length; lia. }
  assert (CC : forall j, j < d -> kept f' j -> colok f' s' j).
  { intros j Hj K. unfold Cache2.colok. rewrite EM.
    destruct (Nat.eq_dec j (kappa - 1)) as [->|N1]; [|destruct (Nat.eq_dec j kappa) as [->|N2]].
    - destruct Ck as (B1 & B2 & B3). destruct Ck1 as (B1' & B2' & B3').
      rewrite ESk, En, sg1, Ebb, sg1 by lia. split; [|split; auto].
      intros i Hi. rewrite EBf, sg1. now apply B1.
    - destruct Ck as (B1 & B2 & B3). destruct Ck1 as (B1' & B2' & B3').
      rewrite ESn, En, sg2, Ebb, sg2 by lia. split; [|split; auto].
      + intros i Hi. rewrite EBf, sg2. destruct (Nat.lt_ge_cases i (Sj s (kappa - 1))) as [Hlt|Hge]; [now apply B1'|].
        destruct (q_z _ _ _ _ _ P) as [Z|(Z1 & Z2 & Z3)].
        * rewrite (Z (kappa - 1) kappa) in Hge by lia. lia.
        * rewrite Z2 by lia. symmetry. apply ZB; [lia|assumption].
      + rewrite B2'. destruct (q_z _ _ _ _ _ P) as [Z|(Z1 & Z2 & Z3)].
        * now rewrite (Z (kappa - 1) kappa) by lia.
        * symmetry. apply dotf_extend; auto; try lia.
    - rewrite ESn, En, Ebb, sg3 by lia. destruct (o_col _ _ _ _ _ O j Hj N2 K) as (B1 & B2 & B3).
      split; [|split; auto]. intros i Hi. rewrite EBf, sg3 by assumption. now apply B1. }
  assert (VRlow : forall k, k < kappa -> VRok f' s' (kappa - 1) (Sj s' (kappa - 1)) k).
  { intros k Hkk. unfold Cache.VRok. rewrite EVR, EV, Ebb, ESk, sg1. now apply (q_VR _ _ _ _ _ P). }
  split.
  - apply fwf_nmax; [exact W'|lia].
  - intros _. exact W'.
  - intros Nk j Hj. destruct (o_lo _ _ _ _ _ O j ltac:(lia)) as [A1 A2]. split; [exact A1|].
    intros k Hkk. unfold Cache.VRok. rewrite EVR, EV, Ebb, ESn, sg3 by lia. now apply A2.
  - exact CC.
  - intros Nk j Hj K k Hkm Hkk. rewrite EM in Hkm. replace (max (kappa - 1) 1) with (kappa - 1) in * by lia.
    destruct (Nat.eq_dec j (kappa - 1)) as [->|N1]; [|destruct (Nat.eq_dec j kappa) as [->|N2]].
    + apply VRlow. lia.
    + unfold Cache.VRok. rewrite EVR, EV, Ebb, ESn, sg2 by lia.
      destruct (o_lo _ _ _ _ _ O (kappa - 1) ltac:(lia)) as [A1 A2]. rewrite (A2 k Hkk).
      destruct (q_z _ _ _ _ _ P) as [Z|(Z1 & Z2 & Z3)].
      * now rewrite (Z (kappa - 1) kappa) by lia.
      * symmetry. apply dotv_extend; auto; try lia.
        intros q i Hq Hi. apply Z3; [lia|].
        pose proof (b_mono c s (g_bok c s G) q (kappa - 1) ltac:(lia)). lia.
    + unfold Cache.VRok. rewrite EVR, EV, Ebb, ESn, sg3 by lia.
      apply (o_hi _ _ _ _ _ O j ltac:(lia) K). exact Hkm.
  - intros Nk Hd K. right. right. replace (max (kappa - 1) 1) with (kappa - 1) in * by lia. split.
    + intros k Hkk. apply VRlow. lia.
    + intros k i Hkk Hi. rewrite ERk, EV, Ebb, ESk, sg1 in *. apply (q_Rk _ _ _ _ _ P); lia.
  - exact DD.
  - destruct (q_z _ _ _ _ _ P) as [Z|(Z1 & Z2 & Z3)]; [left|right].
    + intros i j Hi Hj. rewrite !ES. destruct (i =? kappa - 1), (j =? kappa - 1); auto.
    + split; [exact Z1|]. split.
      * intros j i Hj Hi. rewrite EBf.
        destruct (Nat.eq_dec j (kappa - 1)) as [->|N1]; [|destruct (Nat.eq_dec j kappa) as [->|N2]].
        -- rewrite sg1. apply Z2; lia.
        -- rewrite sg2. rewrite ESn in Hi by lia. apply Z2; lia.
        -- rewrite sg3 by assumption. rewrite ESn in Hi by lia. now apply Z2.
      * intros k i Hkk Hi. rewrite EV. unfold lim in Hkk. destruct (Nat.eqb_spec (max (kappa - 1) 1) 1); [lia|].
        rewrite ESn in Hi by lia. apply Z3; lia.
Qed.

(** *** the loop *)
Definition prevok (kappa : nat) (pk : Z) (p p' : list F) : Prop :=
  length p = d /\ length p' = d /\ (forall j, 1 <= j < kappa -> nth j p fz = nth j p' fz) /\
  (pk = Z.of_nat kappa + 1 -> nth kappa p fz = nth kappa p' fz)%Z.

(** both runs end with the same result; when the loop ran to its end the whole R agrees, and the
    floating-point copy of the basis is up to date *)
Definition finrel (x y : Z * ist * fst_ F * cnt) : Prop :=
  let '(r, s, f, q) := x in let '(r', s', g, q') := y in
  r = r' /\ s = s' /\ q = q' /\ sgood s /\
  (2 <= d -> r = 0%Z -> (nblov q < cnblov_max c)%Z -> agree (iS s) d (fR f) (fR g) /\ forall j, j < d -> colok f s j).

Lemma nblov_depth vb q : nblov (inc_depth vb q) = nblov q.
Proof. unfold inc_depth. now destruct vb. Qed.

Lemma lovasz_agree delta s f g kappa : sgood s -> 1 <= kappa -> kappa < d ->
  wfm n d (fR f) -> wfm n d (fR g) -> agree (iS s) (S kappa) (fR f) (fR g) ->
  lovasz fp c delta s f kappa = lovasz fp c delta s g kappa.
Proof.
  intros G H1 Hk W W' A.
  pose proof (sgood_ND c s G ltac:(lia)) as ND.
  pose proof (g_gt c s G kappa Hk) as G1. pose proof (g_le c s G kappa Hk) as G2.
  unfold lovasz.
  rewrite (rsim_gR fp c kappa s G Hk ND f g (kappa - 1) (kappa - 1)) by (auto; lia).
  rewrite (rsim_gR fp c kappa s G Hk ND f g (kappa - 1) kappa) by (auto; lia).
  destruct (gR fp c (fR g) (kappa - 1) (kappa - 1)); cbn [bind]; auto.
  assert (E1 : forall M : mat F, gcol c M kappa kappa = Ok (skipn kappa (col M kappa))).
  { intros M. unfold gcol, guard. replace (kappa <=? n) with true by (symmetry; apply Nat.leb_le; lia).
    replace (kappa <? d) with true by (symmetry; apply Nat.ltb_lt; lia). reflexivity. }
  rewrite !E1. cbn [bind]. unfold fp_norm, fp_norm_sq.
  assert (LF : length (col (fR f) kappa) = n) by (now apply (wfm_col n d)).
  assert (LG : length (col (fR g) kappa) = n) by (now apply (wfm_col n d)).
  rewrite !scalarprod_dotf by lia. cbn [bind].
  rewrite (dotf_ext fp (fun i => nth i (col (fR f) kappa) fz) (fun i => nth i (col (fR f) kappa) fz)
     (fun i => nth i (col (fR g) kappa) fz) (fun i => nth i (col (fR g) kappa) fz)); [reflexivity|lia| |];
    intros i Hi; apply (A kappa i); lia.
Qed.

Lemma hlll_loop_sim (CK : ckmax c = d) fuel delta vb : forall s f g kappa pk p p' q,
  sgood s -> 1 <= kappa -> (kappa < d \/ kappa = d \/ kappa = 1) -> LI kappa s f -> rel0 (lim kappa) s f g -> prevok kappa pk p p' ->
  rsim finrel (hlll_loop_g fp c hr fuel delta vb s f kappa pk p q)
              (hlll_loop_g fp c (hr_ref fp) fuel delta vb s g kappa pk p' q).
Proof.
  assert (FIN : forall s f g kappa q, sgood s -> 1 <= kappa -> (kappa < d \/ kappa = d \/ kappa = 1) -> LI kappa s f -> rel0 (lim kappa) s f g ->
     negb ((kappa <? ckmax c) && (nblov q <? cnblov_max c)%Z) = true ->
     finrel (0%Z, s, f, inc_depth vb q) (0%Z, s, g, inc_depth vb q)).
  { intros s f g kappa q G H1 Hk HL R E. unfold finrel. split; [reflexivity|split; [reflexivity|split; [reflexivity|split; [assumption|]]]]. intros Hd _ Hb. rewrite nblov_depth in Hb.
    rewrite CK in E. replace (nblov q <? cnblov_max c)%Z with true in E by (symmetry; now apply Z.ltb_lt).
    rewrite andb_true_r in E. apply negb_true_iff, Nat.ltb_ge in E.
    assert (EK : lim kappa = d) by (unfold lim; destruct (Nat.eqb_spec kappa 1); lia).
    assert (KD : kappa = d) by (unfold lim in EK; destruct (Nat.eqb_spec kappa 1); lia).
    rewrite EK in R. split; [apply R|]. intros j Hj. apply (l_col _ _ _ HL j Hj). apply (l_lo _ _ _ HL); lia. }
  induction fuel as [|fuel IH]; intros s f g kappa pk p p' q G H1 HkD L R PR; cbn [hlll_loop_g];
    destruct (negb _) eqn:EN; try (cbn [rsim]; now apply (FIN s f g kappa q)); [exact I|].
  apply negb_false_iff, andb_true_iff in EN as [EN _]. apply Nat.ltb_lt in EN. rewrite CK in EN.
  destruct (enter_sim kappa s f g G H1 EN L R) as (f1 & g1 & -> & -> & P1 & R1 & D1). cbn [bind].
  eapply rsim_bind; [apply (reduce_sim fp c EX hr HS (S fuel) s f1 g1 kappa G H1 EN P1 R1)|].
  intros [[s2 f2] fl] [[s2' g2] fl'] (A1 & A2 & A3 & A4 & A5 & A6 & A7 & A8). cbn [fst snd] in *. subst s2' fl'.
  destruct fl.
  { cbn [rsim]. unfold finrel. cbn beta iota. split; [reflexivity|split; [reflexivity|split; [reflexivity|split; [assumption|intros _ HH; discriminate HH]]]]. }
  rewrite (lovasz_agree delta s2 f2 g2) by (auto; try apply A5; apply A4).
  destruct (lovasz _ _ _ _ g2 _) as [[lt nt]| |]; cbn [bind rsim]; auto.
  assert (HD2 : forall j, j < d -> j <> kappa -> nth j (fdesc f2) 0 = 0).
  { intros j Hj Nj. rewrite A6, D1. now apply (l_desc _ _ _ L). }
  destruct PR as (PL1 & PL2 & PR1 & PR2).
  destruct (fle fp lt nt).
  - apply rsim_guard.
    destruct (householder_v_sim kappa s2 f2 g2 A3 EN (q_wf _ _ _ _ _ A4) A5 (q_nmax _ _ _ _ _ A4))
      as (f3 & g3 & R' & V' & Rg & Vg & Ef & Eg & Sf & Sg & R3 & W3 & HV1 & HV2).
    rewrite Ef, Eg. cbn [bind].
    pose proof (sgood_ND c s2 A3 ltac:(lia)) as ND.
    rewrite (rsim_gR fp c kappa s2 A3 EN ND f3 g3 kappa kappa) by (try lia; apply R3).
    destruct (gR fp c (fR g3) kappa kappa) as [rkk| |]; cbn [bind rsim]; auto.
    assert (EQ : ((pk =? Z.of_nat kappa + 1)%Z && flt fp (nth kappa p fz) (fabs fp rkk))%bool =
                 ((pk =? Z.of_nat kappa + 1)%Z && flt fp (nth kappa p' fz) (fabs fp rkk))%bool).
    { destruct (Z.eqb_spec pk (Z.of_nat kappa + 1)); auto. now rewrite PR2. }
    rewrite EQ. clear EQ; destruct (_ && _)%bool.
    + cbn [rsim]. unfold finrel. cbn beta iota. split; [reflexivity|split; [reflexivity|split; [reflexivity|split; [assumption|intros _ HH; discriminate HH]]]].
    + apply IH; auto; try lia.
      * apply (up_inv kappa s2 f2 f3 R' V'); auto.
      * unfold lim. replace (kappa + 1 =? 1) with false by (symmetry; apply Nat.eqb_neq; lia).
        replace (kappa + 1) with (S kappa) by lia.
        destruct R3 as [[B1 B2 B3] RR RV Rx]. split; setf; auto. split; setf; auto.
      * split; [now rewrite lupd_length|]. split; [now rewrite lupd_length|]. split.
        -- intros j Hj. destruct (Nat.eq_dec j kappa) as [->|Nj].
           ++ rewrite !nth_lupd_eq by lia. reflexivity.
           ++ rewrite !nth_lupd_neq by assumption. apply PR1. lia.
        -- intros HH. lia.
  - apply rsim_guard. apply IH; try lia.
    + now apply swap_sgood.
    + now apply down_inv.
    + destruct A5 as [[B1 B2 B3] RR RV Rx Rn Rm]. split.
      * unfold swap_f. split; setf; auto. now rewrite !lupd_length.
      * intros j i Hj Hi. unfold lim in Hj. destruct (Nat.eqb_spec (max (kappa - 1) 1) 1) as [E1|E1]; [lia|].
        rewrite swap_S in Hi by auto. replace (j =? kappa - 1) with false in Hi by (symmetry; apply Nat.eqb_neq; lia).
        unfold swap_f. setf. apply RR; lia.
      * intros k i Hkk Hi. unfold lim in Hkk. destruct (Nat.eqb_spec (max (kappa - 1) 1) 1) as [E1|E1]; [lia|].
        change (Vf fp f2 i k = Vf fp g2 i k). apply RV; lia.
      * destruct Rx as [Rx|[Rx|Rx]]; [now left|right; now left|right; right]. exact Rx.
    + split; auto. split; auto. split.
      * intros j Hj. apply PR1. lia.
      * intros HH. destruct (Nat.eq_dec kappa 1) as [->|Nk]; [lia|]. apply PR1. lia.
Qed.

End Main.
