(** * No out-of-bounds access in the drivers built on Lattice::hlll and SLattice::hlll *)
From Coq Require Import ZArith Lia List Bool Arith.
From Verif Require Import Base Spec Mat FP Hlll Hlll2 IntSteps HlllInt Structure Object UOnly MatOps MatOpsFacts MachInt Trunc Trunc10
  Lehmer Nullspace Relation Safety Slll SlllSafe Wrap.
Import ListNotations.

Lemma ok_safe {A} (P : A -> Prop) m : (exists a, m = Ok a /\ P a) -> safe P m.
Proof. intros (a & -> & H). exact H. Qed.

(** ** wrappers.h, slll-wrap.h, block.h *)
Section One.
Context {F : Type} (fp : fpops F).

Lemma red_safe fuel delta junk J n d A m : d <= n -> safe (fun _ => True) (red fp fuel delta junk J n d A m).
Proof.
  intros Hd. unfold red. eapply safe_bind; [apply (hlll_safe fp n d); [assumption|apply new_lsafe]|].
  intros [r L] _. exact I.
Qed.

Lemma hh_rv_safe c s i f : cd c <= cn c -> i < cd c -> sok c s -> fw0 c f -> safe (fwf c) (hh_rv fp c s i f).
Proof.
  intros ND Hi Hs W. unfold hh_rv.
  change (householder_r fp c s f i) with (householder_r fp c s (set_nmax 0 f) i).
  eapply safe_bind; [apply householder_r_safe; auto|]. intros f1 W1. now apply householder_v_safe.
Qed.

Variables (f0001 f501 fgap f99 : F) (fmul2 : F -> Z -> F).
Variables (W : list nat -> junk_t (F := F)) (Wb : list nat -> nat -> nat -> junk_t (F := F)).
Variables (fuel : nat) (delta junk : F) (Sg : nat) (method : Z).

Lemma last_col_safe p n k B : 2 <= k <= n -> safe (fun _ => True) (last_col fp W fuel method p n k B).
Proof.
  intros Hk. unfold last_col. set (L := new_lattice _ _ _ _ _ _ _ _ _).
  destruct (new_lsafe fp (W p) n k B false method true 0) as (H1 & H2 & H3 & Hs & Hf). fold L in H1, H2, H3, Hs, Hf.
  set (c := lcfg L) in *.
  assert (ND : cd c <= cn c) by lia.
  eapply safe_bind with (P := fwf c).
  - cbn [mfold]. eapply safe_bind; [apply hh_rv_safe; auto; lia|]. intros f1 W1.
    apply safe_mfold; [assumption|]. intros i t Hi Wt. apply in_seq in Hi. apply hh_rv_safe; auto; [lia|].
    apply fwf_nmax; [assumption|lia].
  - intros f Wf. eapply safe_bind with (P := fun _ => True).
    + pose proof (reduce_safe fp c ND fuel (li L) f (k - 1) Wf Hs ltac:(lia)) as R.
      change (cseysen c) with method in R || idtac. unfold reduce in R. change (cseysen c) with method in R.
      destruct (method <? 1)%Z; (eapply safe_weaken; [|exact R]); trivial.
    + intros [[s f'] b] _. exact I.
Qed.

Lemma seg_safe p n k B : 1 <= k <= n -> 0 < Sg ->
  safe (fun t => (fst t <= Z.of_nat k)%Z) (seg fp f0001 f501 fgap fmul2 W Wb fuel delta junk Sg method p n k B).
Proof.
  intros Hk HS. unfold seg. eapply safe_bind; [apply (new_slattice_safe fp (W p) n k B Sg); assumption|].
  intros L0 (HL & _ & E). eapply safe_bind; [apply (slll_safe fp f0001 f501 fgap fmul2 fuel delta junk (Wb p) Sg Sg 1000000%Z L0); [lia|exact HL]|].
  intros [g L] (_ & _ & G). cbn [fst] in G. cbn [safe fst]. now rewrite E in G.
Qed.

Lemma slll_wrap_gap_safe : 0 < Sg -> forall depth p n d A g, 1 <= g <= d -> d <= n ->
  safe (fun _ => True) (slll_wrap_gap fp f0001 f501 fgap f99 fmul2 W Wb fuel delta junk Sg method depth p n d A g).
Proof.
  intros HS. induction depth as [|depth IH]; intros p n d A g Hg Hd; cbn [slll_wrap_gap]; [exact I|].
  apply safe_guard; [bool_lia|].
  eapply safe_bind; [apply seg_safe; [lia|assumption]|]. intros [g1 B1] G1. cbn [fst] in G1.
  eapply safe_bind with (P := fun _ => True).
  - destruct (Z.leb_spec 2 g1); [|exact I]. apply IH; lia.
  - intros B2 _. now apply red_safe.
Qed.

Lemma wrap_step_safe n A k C : 0 < Sg -> 2 <= k <= n ->
  safe (fun _ => True) (wrap_step fp f0001 f501 fgap f99 fmul2 W Wb fuel delta junk Sg method n A k C).
Proof.
  intros HS Hk. unfold wrap_step. eapply safe_bind; [now apply last_col_safe|]. intros B _.
  eapply safe_bind; [apply seg_safe; [lia|assumption]|]. intros [g B1] G. cbn [fst] in G.
  destruct (Z.leb_spec 2 g); [|exact I]. apply slll_wrap_gap_safe; lia.
Qed.

Lemma slll_wrap_safe dthreshold n d A : 0 < Sg -> 1 <= d <= n -> 1 <= dthreshold ->
  safe (fun _ => True) (slll_wrap fp f0001 f501 fgap f99 fmul2 W Wb fuel delta junk Sg method dthreshold n d A).
Proof.
  intros HS Hd Ht. unfold slll_wrap. eapply safe_bind; [apply red_safe; lia|]. intros C _.
  apply safe_mfold; [exact I|]. intros k t Hk _. apply in_seq in Hk. apply wrap_step_safe; [assumption|lia].
Qed.

Lemma assign_lsafe n d A (L : lattice F) : lsafe n d L -> lsafe n d (assign A L).
Proof.
  intros (H1 & H2 & H3 & Hs & Hf). unfold lsafe, assign. cbn [lcfg li lf].
  do 3 (split; [assumption|]). split; [apply ms_sok|].
  pose proof (fwf_reset _ _ Hf) as Wf. destruct Wf. destruct Hf. split; unfold hlll_reset in *; cbn in *; auto.
  - now rewrite map_length.
  - intros j Hj K. exfalso. rewrite nth_imap with (da := false) in K by lia.
    apply Nat.ltb_lt in Hj. cbn in *. destruct (cd (lcfg L)) as [|q]; [discriminate|]. cbn in Hj. rewrite Hj in K. discriminate.
Qed.

Lemma put_raw_lsafe n d M (L : lattice F) : lsafe n d L -> lsafe n d (put_raw M L).
Proof. intros (H1 & H2 & H3 & Hs & Hf). unfold lsafe, put_raw. cbn [lcfg li lf]. auto. Qed.

Lemma blevel_safe J n d B0 Ain bs dec : 0 < bs <= n -> safe (fun _ => True) (blevel fp fuel delta junk J n d B0 Ain bs dec).
Proof.
  intros Hb. unfold blevel. apply safe_guard; [bool_lia|].
  eapply safe_bind with (P := fun t => lsafe n bs (fst t)).
  - apply safe_mfold; [apply new_lsafe|]. intros k [L B] _ HL. cbn [fst] in HL. unfold blk_step.
    eapply safe_bind with (P := fun t => lsafe n bs (fst t)).
    + destruct (dec <=? k); [|exact HL].
      eapply safe_bind; [apply (hlll_safe fp n bs); [lia|now apply assign_lsafe]|].
      intros [r L'] [G _]. exact G.
    + intros [L' A'] G. exact G.
  - intros [L B] _. exact I.
Qed.
End One.

Section Two.
Context {F G : Type} (fp : fpops F) (gp : fpops G).
Lemma hlll_stages_safe W WG fuel delta junk deltaG junkG d1 d2 n d A : d <= n ->
  safe (fun _ => True) (hlll_stages fp gp W WG fuel delta junk deltaG junkG d1 d2 n d A).
Proof.
  intros Hd. unfold hlll_stages. destruct (Nat.leb_spec d d1); [now apply red_safe|].
  destruct (Nat.leb_spec d d2).
  - eapply safe_bind; [apply red_safe; lia|]. intros C0 _. now apply red_safe.
  - eapply safe_bind; [apply red_safe; lia|]. intros C0 _.
    eapply safe_bind; [apply red_safe; lia|]. intros C1 _.
    change (redG gp fuel deltaG junkG (WG [2]) n d (append n d2 d C1 A) 1)
      with (red gp fuel deltaG junkG (WG [2]) n d (append n d2 d C1 A) 1). now apply red_safe.
Qed.
Lemma hlll_wrapper_safe W WG cin cout fuel delta junk deltaG junkG d1 d2 n d A : d <= n ->
  safe (fun _ => True) (hlll_wrapper fp gp W WG cin cout fuel delta junk deltaG junkG d1 d2 n d A).
Proof.
  intros Hd. unfold hlll_wrapper. eapply safe_bind; [now apply hlll_stages_safe|]. intros C _. exact I.
Qed.
Lemma slll_mpz_safe f0001 f501 fgap f99 fmul2 g0001 g501 ggap g99 gmul2 W Wb WG WGb fuel delta junk deltaG junkG Sg dth d1 d2 n d A :
  0 < Sg -> 1 <= d <= n -> 1 <= dth -> 1 <= d1 <= d2 ->
  safe (fun _ => True) (slll_mpz fp gp f0001 f501 fgap f99 fmul2 g0001 g501 ggap g99 gmul2 W Wb WG WGb fuel delta junk deltaG junkG Sg dth d1 d2 n d A).
Proof.
  intros HS Hd Ht H12. unfold slll_mpz. destruct (Nat.leb_spec d d1); [apply slll_wrap_safe; lia|].
  destruct (Nat.leb_spec d d2).
  - eapply safe_bind; [apply slll_wrap_safe; lia|]. intros C0 _. apply slll_wrap_safe; lia.
  - eapply safe_bind; [apply slll_wrap_safe; lia|]. intros C0 _.
    eapply safe_bind; [apply slll_wrap_safe; lia|]. intros C1 _. apply slll_wrap_safe; lia.
Qed.
End Two.

(** ** lehmer.cc *)
Section Lehmer.
Context {F : Type} (fp : fpops F) (J : junk_t (F := F)) (junk d99 : F).

(** a safe object that computes its transformation *)
Definition tsafe (n d : nat) (L : lattice F) : Prop := lsafe n d L /\ ctransf (lcfg L) = true.
Lemma tsafe_new n d A m : tsafe n d (new_lattice fp J n d A true m true 0).
Proof. split; [apply new_lsafe|reflexivity]. Qed.
Lemma tsafe_hlll n d fh delta vb L : d <= n -> tsafe n d L -> safe (fun t => tsafe n d (snd t)) (hlll fp fh delta vb junk L).
Proof.
  intros ND [H1 H2]. eapply safe_weaken; [|apply (hlll_safe fp n d); eassumption].
  intros [r L'] [G1 G2]. cbn [snd] in *. split; [exact G1|congruence].
Qed.
Lemma tsafe_dims n d L : tsafe n d L -> dr (dU L) = d /\ dc (dU L) = d.
Proof. intros [(_ & H2 & _) H3]. unfold dU. rewrite H3. cbn. auto. Qed.

Lemma lehmer_loop_safe fh lshift truncate n d : 0 < d <= n -> forall fuel C Ct L def,
  dwf C -> dr C = n -> dc C = d -> dwf Ct -> dr Ct = n -> dc Ct = d -> tsafe n d L ->
  safe (fun _ => True) (lehmer_loop fp junk d99 fuel fh lshift truncate C Ct L def).
Proof.
  intros Hd. induction fuel as [|fuel IH]; intros C Ct L def WC C1 C2 WT T1 T2 HL; cbn [lehmer_loop].
  - destruct (def <? 0)%Z; exact I.
  - destruct (def <? 0)%Z; [|exact I]. cbv zeta.
    destruct (lift_truncate_ok Ct C (Z.min 0 (def + lshift)) (if truncate then 40 else 0)%Z WT ltac:(lia) ltac:(lia))
      as (Ct' & mm & E & D1 & D2 & WT' & _).
    rewrite E. cbn [bind].
    eapply safe_bind; [apply (tsafe_hlll n d); [lia|]|].
    { destruct HL as [H1 H2]. split; [now apply assign_lsafe|exact H2]. }
    intros [r L2] HL2. cbn [snd] in HL2. destruct (tsafe_dims _ _ _ HL2) as [U1 U2].
    destruct (matprod_in_ok C (dU L2) WC ltac:(lia) ltac:(lia) ltac:(lia)) as (C' & EP & WC' & C1' & C2' & VP).
    rewrite EP. cbn [bind]. eapply safe_bind; [apply IH; auto; congruence|]. intros [Cf cts] _. exact I.
Qed.

Lemma lehmer_lll_safe fuel fh A delta lshift truncate : dwf A -> 0 < dc A <= dr A ->
  safe (fun _ => True) (lehmer_lll fp J junk d99 fuel fh A delta lshift truncate).
Proof.
  intros WA Hd. unfold lehmer_lll. destruct (lshift =? 0)%Z.
  - eapply safe_bind; [apply (hlll_safe fp (dr A) (dc A)); [lia|apply new_lsafe]|]. intros [r L] _. exact I.
  - cbv zeta. destruct (set_from_ok (resize0 (dr A) (dc A)) A WA (resize0_wf _ _)) as (C0 & E & WC & R & D & V & _); cbn [dr dc resize0]; try lia.
    rewrite E. cbn [bind]. cbn [dr dc resize0] in R, D.
    destruct (maxbitsize_ok A) as (b & Eb & Hb & _). rewrite Eb. cbn [bind].
    apply (lehmer_loop_safe fh lshift truncate (dr A) (dc A)); auto; try lia; [apply resize0_wf|apply tsafe_new].
Qed.

(** ** l1.h and nullspace_lll: the objects also keep an n x d matrix *)
Hypothesis EX : expo_nonneg fp.
Variables (e10 : Z -> Z) (e10' : Z -> Z -> Z).
Definition osafe (n d : nat) (L : lattice F) : Prop := lsafe n d L /\ obj n d L.
Lemma osafe_new n d A m : osafe n d (new_lattice fp J n d A true m true 0).
Proof. split; [apply new_lsafe|]. unfold obj, new_lattice. cbn. repeat split; auto; apply mtab_wfm. Qed.
Lemma osafe_hlll n d fh delta vb L : d <= n -> osafe n d L -> safe (fun t => osafe n d (snd t)) (hlll fp fh delta vb junk L).
Proof using EX.
  intros ND [H1 (O1 & O2 & O3 & O4)]. pose proof (hlll_safe fp n d fh delta vb junk L ND H1) as S.
  pose proof (fun r L' H => hlll_inv fp fh delta vb junk L r L' EX H) as S2.
  destruct (hlll fp fh delta vb junk L) as [[r L']| |]; cbn [safe snd] in *; auto.
  destruct S as [S3 S4]. split; [exact S3|]. unfold obj. rewrite S4. do 3 (split; [assumption|]).
  destruct (S2 r L' eq_refl) as (_ & P & _); [rewrite O1, O2; assumption|].
  apply isteps_wf in P; [|rewrite O1, O2; assumption]. now rewrite O1, O2 in P.
Qed.
Lemma osafe_put n d A up t tau L : osafe n d L -> up <= n -> dr A = n -> dc A = d -> n - up <= d \/ (0 <= t)%Z ->
  safe (osafe n d) (put e10 e10' A up t tau L).
Proof using Type.
  intros [HL (H1 & H2 & H3 & H4)] Hn A1 A2 Ht. apply ok_safe. unfold put.
  destruct (trunc_ok e10 e10' (mkD (cn (lcfg L)) (cd (lcfg L)) (iB (li L))) A up (cd (lcfg L)) (cn (lcfg L)) t tau)
    as (B' & E & _); cbn [dr dc]; try lia.
  { unfold dwf. cbn. rewrite H1, H2. exact H4. }
  rewrite E. cbn [bind]. eexists. split; [reflexivity|]. split; [now apply put_raw_lsafe|].
  unfold put_raw, obj. cbn [lcfg li iS iU iB]. rewrite H1, H2, H3. repeat split; auto; apply mtab_wfm.
Qed.

Lemma l1_rec_safe n d fh leafbits : 0 < d <= n -> forall fuel B L l level,
  (0 <= l)%Z -> (0 <= level)%Z -> dwf B -> dr B = n -> dc B = d -> osafe n d L ->
  safe (fun t => dwf (fst t) /\ dr (fst t) = d /\ dc (fst t) = d /\ osafe n d (snd t)) (l1_rec fp junk d99 e10 e10' fuel fh leafbits B L l level).
Proof using EX.
  intros Hd.
  assert (Leaf : forall B L, dr B = n -> dc B = d -> osafe n d L ->
    safe (fun t => dwf (fst t) /\ dr (fst t) = d /\ dc (fst t) = d /\ osafe n d (snd t))
      (let* L1 := put e10 e10' B 1 0 0 L in let* (_, L2) := hlll fp fh d99 false junk L1 in Ok (dU L2, L2))).
  { intros B L B1 B2 HO. eapply safe_bind; [apply (osafe_put n d); auto; try lia; right; lia|]. intros L1 HO1.
    eapply safe_bind; [apply (osafe_hlll n d); [lia|exact HO1]|]. intros [r L2] HO2. cbn [snd safe fst] in *.
    pose proof HO2 as [_ (K1 & K2 & K3 & K4)].
    unfold dU. rewrite K3. cbn [dr dc]. split; [|auto]. unfold dwf, getU. cbn. rewrite K3. apply mtab_wfm. }
  induction fuel as [|fuel IH]; intros B L l level Hl Hv WB B1 B2 HO; cbn [l1_rec];
    (destruct (Z.leb_spec l leafbits) as [Le|Gt]; [now apply Leaf|]); [exact I|].
  assert (Q : (0 <= Z.quot l 2)%Z) by (apply Z.quot_pos; lia).
  rewrite B1, B2. cbv zeta.
  destruct (trunc_ok e10 e10' (resize0 n d) B 1 d n (Z.quot l 2 + Z.of_nat d + 2 * (level + 1)) (Z.quot l 2) (resize0_wf n d))
    as (C1 & E & WC & R1 & D1 & _); cbn [dr dc resize0]; try lia.
  rewrite E. cbn [bind]. cbn [dr dc resize0] in R1, D1.
  eapply safe_bind; [apply IH; auto; lia|]. intros [U1 L1] (WU & U11 & U12 & HO1). cbn [fst snd] in *.
  destruct (matprod_ok C1 B U1 WC ltac:(lia) ltac:(lia) ltac:(lia) ltac:(lia)) as (C1' & E1 & WC' & R1' & D1' & _).
  rewrite E1. cbn [bind].
  destruct (trunc_ok e10 e10' (resize0 n d) C1' 1 d n (Z.quot l 2 + Z.of_nat d + 2 * (level + 1)) 0 (resize0_wf n d))
    as (C2 & E2 & WC2 & R2 & D2 & _); cbn [dr dc resize0]; try lia.
  rewrite E2. cbn [bind]. cbn [dr dc resize0] in R2, D2.
  eapply safe_bind; [apply IH; auto; lia|]. intros [U2 L2] (WU2 & U21 & U22 & HO2). cbn [fst snd] in *.
  destruct (matprod_rows_ok U1 U2 WU ltac:(lia) ltac:(lia) ltac:(lia)) as (U' & E3 & WU' & R3 & D3 & V).
  rewrite E3. cbn [bind safe fst snd]. split; [exact WU'|]. do 2 (split; [congruence|]). exact HO2.
Qed.

Lemma l1_safe fuel fh leafbits A : dwf A -> 0 < dc A <= dr A ->
  safe (fun _ => True) (l1 fp J junk d99 e10 e10' fuel fh leafbits A).
Proof using EX.
  intros WA Hd. unfold l1. destruct (maxbitsize_ok A) as (b & E & Hb & _). rewrite E. cbn [bind].
  eapply safe_bind; [apply (l1_rec_safe (dr A) (dc A)); auto; try lia; apply osafe_new|].
  intros [U L] (WU & U1 & U2 & _). cbn [fst snd] in *.
  destruct (matprod_ok (resize0 (dr A) (dc A)) A U (resize0_wf _ _)) as (B1 & E1 & _); cbn [dr dc resize0]; try lia.
  rewrite E1. exact I.
Qed.

(** ** nullspace_lll *)
Variables delta1 delta2 : F.

Lemma flags_len (rd : nat -> nat -> res Z) d n f : (forall i j, i < d -> j < n -> rd i j = Ok (f i j)) ->
  exists l, null_flags rd d n = Ok l /\ length l = n.
Proof using Type. intros H. destruct (null_flags_ok rd d n f H) as (l & E & L & _). eauto. Qed.

Lemma ns_loop_safe d n fh lsigma : 0 < n -> forall fuel B L shift, dwf B -> dr B = d + n -> dc B = n -> osafe (d + n) n L ->
  safe (fun t => dr (fst t) = d + n /\ dc (fst t) = n /\ length (snd t) = n)
       (ns_loop fp junk delta2 e10 e10' fuel fh d n lsigma B L shift).
Proof using EX.
  intros Hn. induction fuel as [|fuel IH]; intros B L shift W D1 D2 HO; cbn [ns_loop]; [exact I|]. cbv zeta.
  destruct (shift_in_ok e10 e10' Ok B (shift + lsigma) d W ltac:(lia)) as (BL & E & WL & L1 & L2 & _). rewrite E. cbn [bind].
  eapply safe_bind; [apply (osafe_put (d + n) n); [exact HO| | | |]; try lia; congruence|]. intros Lp HO1.
  eapply safe_bind; [apply (osafe_hlll (d + n) n); [lia|exact HO1]|]. intros [r L3] HO3. cbn [snd] in HO3.
  destruct (dU_dims _ _ _ (proj2 HO3)) as [Q1 Q2].
  destruct (matprod_in_ok B (dU L3) W ltac:(lia) ltac:(lia) ltac:(lia)) as (B2 & E2 & W2 & R1 & R2 & VP).
  rewrite E2. cbn [bind].
  destruct (flags_len (gget B2) d n (ent B2)) as (l & El & Ll); [intros; apply gget_ok; lia|].
  rewrite El. cbn [bind]. destruct (_ <=? _)%Z.
  - cbn [safe fst snd]. repeat split; congruence.
  - apply IH; auto; congruence.
Qed.

Variable ext : dmat -> res dmat.
Lemma nullspace_lll_safe fuel fh A lalpha lsigma m : dwf A -> 0 < dc A -> (0 <= lalpha)%Z ->
  (m = FPLLL -> forall T, dr T = dc A -> dc T = dr A + dc A -> safe (fun T' => dr T' = dr T /\ dc T' = dc T) (ext T)) ->
  safe (fun _ => True) (nullspace_lll fp J junk delta1 delta2 e10 e10' ext fuel fh A lalpha lsigma m).
Proof using EX.
  intros WA Hn Hl EXT. unfold nullspace_lll. cbv zeta.
  destruct (initial_ok A lalpha Hl) as (B & EB & W & D1 & D2 & _). rewrite EB. cbn [bind].
  eapply safe_bind with (P := fun t => dr (fst t) = dr A + dc A /\ dc (fst t) = dc A /\ length (snd t) = dc A).
  - destruct (Z.eqb_spec lsigma 0).
    + eapply safe_bind with (P := fun B1 => dr B1 = dr A + dc A /\ dc B1 = dc A).
      * assert (TR : forall T, dr T = dc A -> dc T = dr A + dc A -> safe (fun B1 => dr B1 = dr A + dc A /\ dc B1 = dc A) (transpose_to B T)).
        { intros T T1 T2. destruct (transpose_to_ok B T W ltac:(lia) ltac:(lia)) as (B2 & E2 & W2 & B21 & B22 & _).
          rewrite E2. cbn [safe]. split; congruence. }
        destruct m; [| |cbn [safe]; auto].
        -- eapply safe_bind; [apply (hlll_safe fp (dr A + dc A) (dc A)); [lia|apply new_lsafe]|].
           intros [r0 L] [(C1 & C2 & _) _]. cbn [snd] in *.
           destruct (transpose_to_ok (resize0 (dc A) (dr A + dc A)) (dbase L) (resize0_wf _ _)) as (T & ET & WT & T1 & T2 & _);
             [cbn; lia|cbn; lia|]. rewrite ET. cbn [bind]. now apply TR.
        -- destruct (transpose_to_ok (resize0 (dc A) (dr A + dc A)) B (resize0_wf _ _)) as (AT & ET & WT & T1 & T2 & _);
             [cbn; lia|cbn; lia|]. rewrite ET. cbn [bind]. cbn [dr dc resize0] in T1, T2.
           eapply safe_bind; [apply (EXT eq_refl AT T1 T2)|]. intros AT' [X1 X2]. apply TR; congruence.
      * intros B1 [M1 M2]. destruct (flags_len (gget B1) (dr A) (dc A) (ent B1)) as (l & El & Ll); [intros; apply gget_ok; lia|].
        rewrite El. cbn [bind safe fst snd]. auto.
    + destruct (rows_max_ok B 0 (dr A) (dc A) 0 ltac:(lia) ltac:(lia)) as (mx & Em & _). rewrite Em. cbn [bind].
      apply ns_loop_safe; auto. apply osafe_new.
  - intros [B' null] (M1 & M2 & Ln). cbn [fst snd] in *. destruct (_ && _)%bool; [exact I|].
    destruct (extract_ok (fun i j => gget B' (i + dr A) j) (dc A) null (dc A) (resize0 (dc A) (count_true null)) (fun i j => ent B' (i + dr A) j)
      (resize0_wf _ _)) as (C & E & _); cbn [dr dc resize0]; try lia.
    + rewrite count_true_filter, Ln. lia.
    + intros i j Hi Hj. apply gget_ok; lia.
    + rewrite E. exact I.
Qed.
End Lehmer.

(** ** relations_z.cc *)
Lemma smallest_safe z1 A d : 0 < d <= dc A -> 0 < dr A -> safe (fun t => fst t < d) (smallest z1 A d).
Proof.
  intros Hd Hr. unfold smallest. rewrite gget_ok by lia. cbn [bind]. apply safe_mfold; [cbn; lia|].
  intros i [f tz] I Hf. apply in_seq in I. rewrite gget_ok by lia. cbn [bind safe fst] in *.
  destruct (_ <? _)%Z; cbn [fst]; [lia|exact Hf].
Qed.
Lemma max_col_safe A m d f def : m + d <= dr A -> 0 < dr A -> f < dc A -> safe (fun _ => True) (max_col A m d f def).
Proof.
  intros Hd Hr Hf. unfold max_col. rewrite gget_ok by lia. cbn [bind]. apply safe_mfold; [exact I|].
  intros i mx Hi _. apply in_seq in Hi. rewrite gget_ok by lia. exact I.
Qed.

Section Rel.
Context {F : Type} (fp : fpops F) {Q : Type} (fq : fpops Q) (J : junk_t (F := F)) (junk delta : F).
Variable ext : dmat -> res dmat.

(** what the external reduction has to return: a square matrix of the dimension of the basis *)
Definition ext_square (d n : nat) : Prop :=
  forall T, dr T = d -> dc T = n -> safe (fun U => dr U = d /\ dc U = d) (ext T).

Lemma rel_loop_safe fh lm m d shift truncate inputgap bitsize target confidence :
  0 < m -> 0 < d -> (lm = RFPLLL -> ext_square d (m + d)) -> forall fuel A_in T L def quot,
  dwf A_in -> dr A_in = m + d -> dc A_in = d -> dwf T -> dr T = m + d -> dc T = d -> tsafe (m + d) d L ->
  safe (fun _ => True) (rel_loop fp fq junk delta ext fuel fh lm m d shift truncate inputgap bitsize target confidence A_in T L def quot).
Proof.
  intros Hm Hd EXT. induction fuel as [|fuel IH]; intros A_in T L def quot W D1 D2 WT T1 T2 HL; cbn [rel_loop].
  { destruct (def <? target)%Z; exact I. }
  destruct (def <? target)%Z; [|exact I].
  cbv zeta. set (def' := if (target - def <=? shift)%Z then target else (def + shift)%Z) in *.
  destruct (lift_truncate_ok T A_in def' (rel_bits truncate shift d) WT ltac:(lia) ltac:(lia)) as (T' & mm & ET & T1' & T2' & WT' & _).
  rewrite ET. cbn [bind].
  eapply safe_bind with (P := fun t => dr (fst t) = d /\ dc (fst t) = d /\ tsafe (m + d) d (snd t)).
  { destruct lm.
    - eapply safe_bind; [apply (tsafe_hlll fp junk (m + d) d); [lia|]|].
      { destruct HL as [H1 H2]. split; [now apply assign_lsafe|exact H2]. }
      intros [r L2] HL2. cbn [snd] in HL2. cbn [safe fst snd]. destruct (tsafe_dims _ _ _ HL2). auto.
    - destruct (transpose_to_ok (resize0 d (m + d)) T' (resize0_wf _ _)) as (TT & E1 & _ & R1 & R2 & _); [cbn; lia|cbn; lia|].
      rewrite E1. cbn [bind dr dc resize0] in *. eapply safe_bind; [apply (EXT eq_refl); assumption|]. intros UT [U1 U2].
      destruct (transpose_to_ok (resize0 d d) UT (resize0_wf _ _)) as (U & E2 & _ & Q1 & Q2 & _); [cbn; lia|cbn; lia|].
      rewrite E2. cbn [bind safe fst snd dr dc resize0] in *. auto. }
  intros [U L2] (U1 & U2 & HL2). cbn [fst snd] in *.
  destruct (matprod_in_ok A_in U W ltac:(lia) ltac:(lia) ltac:(lia)) as (A' & EA & WA & R1 & R2 & _).
  rewrite EA. cbn [bind].
  eapply safe_bind; [apply smallest_safe; lia|]. intros [f tz] Hf. cbn [fst] in Hf.
  eapply safe_bind; [apply max_col_safe; lia|]. intros mx _.
  destruct (_ && _)%bool.
  - destruct (out_col_ok ext A' m d f) as (C & E & _); [lia|lia|]. rewrite E. exact I.
  - eapply safe_bind; [apply IH; auto; congruence|]. intros [[r oC] ts] _. exact I.
Qed.

Lemma relation_lll_safe fuel fh lm A alpha shift truncate inputgap sm q0 confidence : 0 < dr A -> 0 < dc A ->
  (lm = RFPLLL -> ext_square (dc A) (dr A + dc A)) ->
  safe (fun _ => True) (relation_lll fp fq J junk delta ext fuel fh lm A alpha shift truncate inputgap sm q0 confidence).
Proof.
  intros Hm Hd EXT. unfold relation_lll. cbv zeta.
  destruct (rel_initial_ok ext A Hm Hd) as (B & EB & WB & D1 & D2 & _). rewrite EB. cbn [bind].
  destruct (rows_max_ok A 0 (dr A) (dc A) 0 ltac:(lia) ltac:(lia)) as (mx & Em & _). rewrite Em. cbn [bind].
  apply rel_loop_safe; auto; [apply resize0_wf|apply tsafe_new].
Qed.

Lemma fptuple_lll_safe fh L : dr L = 1 -> 0 < dc L -> dwf L -> safe (fun _ => True) (fptuple_lll fp J junk delta fh L).
Proof.
  intros HL Hd WL. unfold fptuple_lll. cbv zeta.
  destruct (rel_initial_ok ext L ltac:(lia) Hd) as (A & EA & WA & D1 & D2 & _). rewrite EA. cbn [bind].
  eapply safe_bind; [apply (hlll_safe fp (1 + dc L) (dc L)); [lia|apply new_lsafe]|].
  intros [r B] [(C1 & C2 & _) _]. cbn [snd] in *.
  destruct (for2_simple (dc L) (dc L) (fun i j M => let* a := gget (dbase B) (i + 1) j in gset M i j a)
    (fun i j => ent (dbase B) (i + 1) j) (resize0 (dc L) (dc L)) (resize0_wf _ _)) as (U & EU & WU & U1 & U2 & _); cbn [dr dc resize0]; try lia.
  { intros i j N Hi Hj _ _ _ _. rewrite gget_ok by (unfold dbase; cbn [dr dc]; lia). reflexivity. }
  rewrite EU. cbn [bind]. cbn [dr dc resize0] in U1, U2.
  destruct (matprod_in_ok L U WL ltac:(lia) ltac:(lia) ltac:(lia)) as (L' & EL & WL' & L1 & L2 & _).
  rewrite EL. cbn [bind]. eapply safe_bind; [apply smallest_safe; lia|]. intros [f tz] Hf. cbn [fst] in Hf.
  destruct (out_col_ok ext (dbase B) 1 (dc L) f) as (C & E & _); [unfold dbase; cbn [dr]; lia|unfold dbase; cbn [dc]; lia|].
  rewrite E. exact I.
Qed.
End Rel.
