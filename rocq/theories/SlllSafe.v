(** * No out-of-bounds access in SLattice::hlll and rotate *)
From Coq Require Import ZArith Lia List Bool Arith.
From Verif Require Import Base Spec Mat FP Hlll Hlll2 Hlllp IntSteps HlllInt Structure Object Safety Slll SlllPad.
Import ListNotations.

Section S.
Context {F : Type} (fp : fpops F).

Section Cfg.
Variable c : cfg.
Notation n := (cn c).
Notation d := (cd c).
Hypothesis ND : d <= n.

Definition fw0 (f : fst_ F) : Prop := fwf c (set_nmax 0 f).
Lemma fw0_of f : fwf c f -> fw0 f.
Proof. intros W. apply fwf_nmax; [assumption|lia]. Qed.

Lemma hh_col_fw0 B kappa f : kappa < d -> fw0 f -> safe fw0 (hh_col fp c B kappa f).
Proof.
  intros Hk W. unfold hh_col.
  assert (W1 : fw0 (set_R (setcol_z fp (fR f) kappa (col B kappa) n) f)).
  { apply (fwf_R c (set_nmax 0 f)); [assumption|]. apply setcol_wfm; try lia; apply W. }
  eapply safe_bind with (P := fw0).
  { apply safe_mfold; [exact W1|]. intros k t I2 Wt. apply in_seq in I2. unfold hh_reflect.
    eapply safe_bind; [apply safe_gcol; try lia; apply Wt|]. intros v Hv; cbn beta in Hv.
    eapply safe_bind; [apply safe_gcol; try lia; apply Wt|]. intros r Hr; cbn beta in Hr.
    eapply safe_bind; [eapply safe_scalarprod; lia|]. intros p _.
    eapply safe_bind; [apply safe_fmasub; try lia; apply Wt|]. intros R' WR. cbn [safe].
    now apply (fwf_R c (set_nmax 0 t)). }
  intros f2 W2.
  eapply safe_bind; [apply safe_gR; lia|]. intros w0 _.
  eapply safe_bind; [apply safe_gcol; try lia; apply W2|]. intros rc Hrc; cbn beta in Hrc.
  eapply safe_bind; [eapply safe_norm; lia|]. intros nr _.
  destruct (if fle fp (fzero fp) w0 then _ else _) as [s rkk].
  apply safe_guard; [bool_lia|]. cbn [safe].
  match goal with |- fw0 (set_R ?M (set_V ?N f2)) => apply (fwf_R c (set_V N (set_nmax 0 f2)) M) end.
  - apply fwf_V; [assumption|]. apply wfm_lupd; [apply W2|]. now rewrite map_length, seq_length.
  - apply wfm_lupd; [apply wfm_mset, W2|]. now rewrite map_length, seq_length.
Qed.

Lemma sl_householder_safe dmax B f : 1 <= dmax <= d -> fw0 f -> safe fw0 (sl_householder fp c dmax B f).
Proof.
  intros Hd W. unfold sl_householder. apply safe_mfold; [assumption|].
  intros k t I Wt. apply in_seq in I. destruct (Nat.eqb_spec dmax 0); [lia|]. apply hh_col_fw0; auto; lia.
Qed.

Lemma sl_padR_safe dorig a f : fw0 f -> safe fw0 (sl_padR c dorig a f).
Proof.
  intros W. unfold sl_padR. apply safe_mfold; [assumption|].
  intros i t I Wt. apply in_seq in I. apply safe_guard; [bool_lia|]. cbn [safe].
  apply (fwf_R c (set_nmax 0 t)); [assumption|]. apply wfm_mset, Wt.
Qed.

(** Seysen *)
Lemma ss_block_safe f501 s0 kappa ix bd st : sok c s0 -> 1 <= kappa < d -> ix + bd <= kappa -> good6 c s0 st ->
  safe (good6 c s0) (ss_block fp f501 c kappa ix bd st).
Proof.
  intros Hs Hk Hb G. destruct st as [[[[[s f] vx] tmp] bdd] dn]. destruct G as [E W]. unfold ss_block.
  assert (RB : forall i, In i (block_rows kappa ix bd) -> i < kappa).
  { intros i I. unfold block_rows in I. rewrite <- in_rev in I. apply in_seq in I. lia. }
  eapply safe_bind with (P := fun _ => True).
  { apply safe_mfold; auto. intros i t I _. apply RB in I.
    eapply safe_bind; [apply safe_gR; lia|]. now cbn. }
  intros tmp1 _. eapply safe_bind with (P := fun _ => True).
  { apply safe_mfold; auto. intros i [[[v t] b1] b2] I _. apply RB in I. unfold ss_coefs_step.
    eapply safe_bind; [apply safe_gR; lia|]. intros rii _. now cbn. }
  intros [[[vx1 tmp2] bd1] sd1] _. destruct (bd <=? 255).
  - eapply safe_bind with (P := fun st => iS (fst st) = iS s0 /\ fwf c (snd st)).
    + apply safe_mfold; [now split|]. intros i [s1 f1] I [E1 W1]. cbn [fst snd] in *. apply RB in I. unfold ss_update_step.
      destruct (nth i bd1 true); [now split|]. destruct (fgse fp _) as [lx expo]. apply safe_guard.
      { apply andb_true_iff. split; apply Nat.leb_le; [rewrite E1; apply Hs; lia|lia]. }
      cbn. split; auto. apply fwf_R; [assumption|]. apply wfm_colop, W1.
    + intros [s1 f1] G1. exact G1.
  - eapply safe_bind with (P := fwf c).
    { apply safe_mfold; [assumption|]. intros i f1 I W1. unfold ss_update_R_step.
      destruct (nth i bd1 true); [exact W1|]. destruct (fgse fp _) as [lx expo]. apply safe_guard; [bool_lia|].
      cbn. apply fwf_R; [assumption|]. apply wfm_colop, W1. }
    intros f1 W1. eapply safe_bind with (P := fun s1 => iS s1 = iS s0).
    { unfold ss_pupdate_B. apply safe_guard; [|exact E]. apply andb_true_iff. split; [apply Nat.ltb_lt; lia|].
      apply Nat.leb_le. unfold ss_nmax. rewrite E. eapply (fold_max_le c); [assumption|apply Hs; lia|].
      intros i I. apply in_down in I. apply Hs. lia. }
    intros s1 E1. cbn [safe]. now split.
Qed.


Lemma ss_loop_safe f501 fuel s0 kappa : sok c s0 -> 1 <= kappa < d -> forall s f vx tmp bd,
  fwf c f -> iS s = iS s0 -> safe (good c s0) (ss_loop fp f501 c fuel s f vx tmp bd kappa).
Proof.
  intros Hs Hk. induction fuel as [|fuel IH]; intros s f vx tmp bd W E; cbn [ss_loop]; [now cbn|].
  eapply safe_bind with (P := good6 c s0).
  { apply safe_mfold; [now split|]. intros [ix bdm] t I G. cbn [fst snd].
    apply ss_block_safe; auto.
    change (fst (ix, bdm) + snd (ix, bdm) <= kappa).
    apply (seysen_blocks_le (kappa + 1) 0). cbn [Nat.pow]. rewrite Nat.mod_1_r. exact I. }
  intros [[[[[s1 f1] v1] t1] b1] sd] [E1 W1]. destruct sd; [|cbn; now split].
  eapply safe_bind; [apply householder_r_safe; eauto using sok_eq; try lia|].
  { apply fwf_kept_false; auto; lia. }
  intros f3 W3. apply IH; auto.
Qed.

Lemma sl_size_safe f0001 f501 fuel s f i : fwf c f -> sok c s -> 1 <= i < d ->
  safe (good c s) (sl_size fp f0001 f501 c fuel s f i).
Proof.
  intros W Hs Hi. unfold sl_size. destruct (_ <? _)%Z.
  - eapply safe_bind; [apply hsizereduce_safe; auto|]. intros [[s1 f1] b] G. exact G.
  - unfold ss_seysenreduce. eapply safe_bind; [apply householder_r_safe; auto; [apply fwf_nmax; [assumption|apply Hs; lia]|lia]|].
    intros f1 W1. now apply ss_loop_safe.
Qed.

(** the gap status is at most the number of columns before padding *)
Definition goodz (dorig : nat) (s0 : ist) (t : Z * ist * fst_ F) : Prop :=
  iS (snd (fst t)) = iS s0 /\ fwf c (snd t) /\ (fst (fst t) <= Z.of_nat dorig)%Z.

Lemma sl_gap_loop_safe f0001 f501 fgap fuel dorig s0 is : sok c s0 -> (forall i, In i is -> 1 <= i < d) ->
  forall s f, iS s = iS s0 -> fwf c f -> safe (goodz dorig s0) (sl_gap_loop fp f0001 f501 fgap c fuel dorig is s f).
Proof.
  intros Hs. induction is as [|i is IH]; intros Hi s f E W; cbn [sl_gap_loop]; [unfold goodz; cbn [safe fst snd]; split; [assumption|split; [assumption|lia]]|].
  pose proof (Hi i (or_introl eq_refl)) as Hi0.
  eapply safe_bind; [apply sl_size_safe; eauto using sok_eq|]. intros [s1 f1] [E1 W1]. cbn [fst snd] in *.
  eapply safe_bind; [apply householder_v_safe; auto; lia|]. intros f2 W2.
  assert (E2 : iS s1 = iS s0) by congruence.
  assert (N : safe (goodz dorig s0) (sl_gap_loop fp f0001 f501 fgap c fuel dorig is s1 f2)).
  { apply IH; auto. intros j Hj. apply Hi. now right. }
  destruct ((2 <=? i) && (i <? dorig - 1)) eqn:EG; [|exact N].
  apply andb_true_iff in EG as [_ EG]. apply Nat.ltb_lt in EG.
  eapply safe_bind; [apply safe_gR; lia|]. intros a _.
  eapply safe_bind; [apply safe_gR; lia|]. intros b _.
  destruct (fcmp1 fp _ _); [|exact N]. unfold goodz. cbn [safe fst snd]. do 2 (split; [assumption|]). lia.
Qed.

Lemma sl_reduce_gap_safe f0001 f501 fgap fuel dorig s f : 1 <= dorig <= d -> sok c s -> fw0 f ->
  safe (goodz dorig s) (sl_reduce_gap fp f0001 f501 fgap c fuel dorig s f).
Proof.
  intros Hd Hs W. unfold sl_reduce_gap.
  set (f0 := set_desc _ _).
  assert (W0 : fw0 f0).
  { destruct W. unfold f0. split; cbn in *; auto; try (now rewrite imap_length).
    intros j Hj K. rewrite nth_imap with (da := false) in K by lia.
    destruct dorig as [|m]; [now apply w_km|]. destruct (j <=? m); [discriminate K|]. now apply w_km. }
  change (householder_r fp c s f0 0) with (householder_r fp c s (set_nmax 0 f0) 0).
  eapply safe_bind; [apply householder_r_safe; auto; lia|]. intros f1 W1.
  eapply safe_bind; [apply householder_v_safe; auto; lia|]. intros f2 W2.
  apply sl_gap_loop_safe; auto. intros i I. apply in_seq in I. lia.
Qed.

Lemma sl_RZ_safe fmul2 b f : 1 <= d -> fw0 f -> safe (fun _ => True) (sl_RZ fp fmul2 c b (fR f)).
Proof.
  intros Hd W. unfold sl_RZ. eapply safe_bind with (P := fun _ => True).
  - unfold sl_minval. assert (WR : wfm n d (fR f)) by apply W.
    eapply safe_bind; [apply safe_gcol; try lia; exact WR|]. intros c0 H0; cbn beta in H0.
    eapply safe_bind; [apply safe_norm; lia|]. intros m0 _.
    apply safe_mfold; [exact I|]. intros j m Hj _. apply in_seq in Hj.
    eapply safe_bind; [apply safe_gcol; try lia; exact WR|]. intros cj H1; cbn beta in H1.
    eapply safe_bind; [apply safe_norm; lia|]. intros nj _. exact I.
  - intros mv _. apply safe_guard; [bool_lia|]. exact I.
Qed.

Lemma sl_block_out_safe fuel delta junk Jb lovmax vd RZ sdim off k : k * sdim + sdim + off <= d ->
  safe (fun _ => True) (sl_block_out fp c fuel delta junk Jb lovmax vd RZ sdim off k).
Proof.
  intros Hk. unfold sl_block_out, sl_getblock. eapply safe_bind with (P := fun _ => True).
  - apply safe_guard; [bool_lia|]. exact I.
  - intros Bk _. eapply safe_bind; [apply (hlll_safe fp sdim sdim); [lia|]|].
    + destruct (new_lsafe fp (Jb k) sdim sdim Bk true (cseysen c) true vd) as (H1 & H2 & H3 & H4 & H5).
      unfold lsafe, set_nblov_max. do 4 (split; [assumption|]). eapply fwf_cfg; [| |exact H5]; reflexivity.
    + intros [r BR'] _. exact I.
Qed.

Lemma sl_block_red_safe fuel delta junk Jb lovmax RZ sdim off odd k lsw st :
  k * sdim + sdim + off <= d -> 2 * k + odd < lsw -> length (snd (fst (fst st))) = lsw ->
  safe (fun t : bacc => length (snd (fst (fst t))) = lsw) (sl_block_red fp c fuel delta junk Jb lovmax RZ sdim off odd k st).
Proof.
  intros Hk Ho Hl. destruct st as [[[U sw] q] tests]. cbn [fst snd] in Hl. unfold sl_block_red.
  eapply safe_bind; [now apply sl_block_out_safe|]. intros [[Uk nsw] nlov] _.
  apply safe_guard; [bool_lia|]. eapply safe_bind with (P := fun _ => True).
  - apply safe_guard; [bool_lia|]. exact I.
  - intros U' _. cbn [safe fst snd]. now rewrite lupd_length.
Qed.

Lemma sl_pmatprod_safe S dec U B : 0 < S -> safe (fun _ => True) (sl_pmatprod c S dec U B).
Proof.
  intros HS. unfold sl_pmatprod. apply safe_mfold; [exact I|]. intros b B1 Hb _. apply in_seq in Hb.
  unfold sl_block_prod. apply safe_guard; [|exact I]. apply Nat.leb_le.
  pose proof (Nat.mul_div_le d S ltac:(lia)) as D.
  pose proof (Nat.div_mod (d / S) 2 ltac:(lia)) as D2. destruct (dec =? 0); nia.
Qed.

Definition goodh (dorig : nat) (s0 : ist) (lsw : nat) (t : Z * Z * ist * fst_ F * list Z * cnt) : Prop :=
  let '(gs, tests, s, f, sw, q) := t in iS s = iS s0 /\ fw0 f /\ length sw = lsw /\ (gs <= Z.of_nat dorig)%Z.

Lemma half_le a S : 0 < S -> a / (2 * S) = a / S / 2.
Proof. intros. rewrite Nat.mul_comm. symmetry. apply Nat.div_div; lia. Qed.

Lemma sl_half_safe f0001 f501 fgap fmul2 fuel delta junk Jb lovmax S S0 dorig odd afmax s f sw q :
  0 < S <= S0 -> 1 <= dorig <= d -> odd <= 1 -> sok c s -> fw0 f -> length sw = 2 * S0 - 1 ->
  safe (goodh dorig s (2 * S0 - 1)) (sl_half fp f0001 f501 fgap fmul2 c fuel delta junk Jb lovmax S dorig odd afmax s f sw q).
Proof.
  intros HS Hd Ho Hs W Hl. unfold sl_half.
  eapply safe_bind; [apply sl_RZ_safe; auto; lia|]. intros RZ _.
  eapply safe_bind with (P := fun t : bacc => length (snd (fst (fst t))) = 2 * S0 - 1).
  { apply safe_mfold; [exact Hl|]. intros k t Ik Ht. apply in_seq in Ik.
    pose proof (Nat.mul_div_le d S ltac:(lia)) as D.
    pose proof (Nat.div_mod (d / S) 2 ltac:(lia)) as D2.
    apply sl_block_red_safe; auto; destruct (Nat.eqb_spec odd 0); rewrite ?half_le by lia; nia. }
  intros [[[U sw1] q1] tests] Hl1. cbn [fst snd] in Hl1.
  eapply safe_bind; [apply sl_pmatprod_safe; lia|]. intros B1 _.
  eapply safe_bind; [apply sl_reduce_gap_safe; auto|].
  intros [[gs s1] f1] (E1 & W1 & G1). cbn [fst snd iS] in *.
  destruct (2 <=? gs)%Z.
  - cbn [safe]. unfold goodh. auto using fw0_of.
  - eapply safe_bind; [apply sl_padR_safe; eauto using fw0_of|]. intros f2 W2. cbn [safe]. unfold goodh. auto.
Qed.

Definition goodl (dorig : nat) (s0 : ist) (lsw : nat) (t : Z * ist * fst_ F * list Z * cnt) : Prop :=
  let '(r, s, f, sw, q) := t in iS s = iS s0 /\ fw0 f /\ length sw = lsw /\ (r <= Z.of_nat dorig)%Z.

Lemma sl_loop_safe f0001 f501 fgap fmul2 delta junk Jb lovmax S S0 dorig afmax s0 :
  0 < S <= S0 -> 1 <= dorig <= d -> sok c s0 -> forall fuel s f sw q,
  iS s = iS s0 -> fw0 f -> length sw = 2 * S0 - 1 ->
  safe (goodl dorig s0 (2 * S0 - 1)) (sl_loop fp f0001 f501 fgap fmul2 c fuel delta junk Jb lovmax S dorig afmax s f sw q).
Proof.
  intros HS Hd Hs. induction fuel as [|fuel IH]; intros s f sw q E W Hl; cbn [sl_loop]; [now cbn|].
  eapply safe_bind; [apply sl_half_safe; eauto using sok_eq|].
  intros [[[[[gs t1] s1] f1] sw1] q1] (E1 & W1 & Hl1 & G1).
  assert (X1 : iS s1 = iS s0) by congruence.
  destruct (2 <=? gs)%Z; [now cbn|].
  eapply safe_bind; [apply sl_half_safe; eauto using sok_eq|].
  intros [[[[[gs2 t2] s2] f2] sw2] q2] (E2 & W2 & Hl2 & G2).
  assert (X2 : iS s2 = iS s0) by congruence.
  destruct (2 <=? gs2)%Z; [now cbn|].
  destruct (_ && _)%bool; [unfold goodl; cbn [safe]; split; [assumption|split; [assumption|split; [assumption|lia]]]|]. now apply IH.
Qed.
End Cfg.

Lemma last_is_nth (l : list nat) : last l 0 = nth (length l - 1) l 0.
Proof.
  induction l as [|a l IH]; [reflexivity|]. destruct l as [|b l]; [reflexivity|].
  change (last (a :: b :: l) 0) with (last (b :: l) 0). rewrite IH.
  replace (length (b :: l) - 1) with (length l) by (cbn; lia).
  now replace (length (a :: b :: l) - 1) with (Datatypes.S (length l)) by (cbn; lia).
Qed.

(** an object that accepts calls with at most S0 segments and rotations of at most the padded dimension *)
Definition slsafe (S0 : nat) (L : slattice F) : Prop :=
  cd (scfg L) <= cn (scfg L) /\ 1 <= sdorig L <= cd (scfg L) /\ sok (scfg L) (si L) /\ fw0 (scfg L) (sf L) /\
  length (sswaps L) = 2 * S0 - 1.

Lemma new_slattice_safe J n d A S0 forU m lg vd : 1 <= d <= n -> 0 < S0 ->
  safe (fun L => slsafe S0 L /\ cd (scfg L) = d + pad_dim d (2 * S0) /\ sdorig L = d) (new_slattice fp J n d A S0 forU m lg vd).
Proof.
  intros Hd HS. unfold new_slattice. apply safe_guard; [bool_lia|]. cbn [safe].
  split; [|split; reflexivity].
  unfold slsafe. cbn [scfg sdorig si sf sswaps cn cd iS]. split; [lia|]. split; [lia|]. split; [|split].
  - intros j Hj. cbn [cd cn iS] in *.
    set (M := mtab _ _ _). set (p := pad_dim _ _) in *.
    destruct (nth_in_or_default j (repeat (last (matrix_structure M (n + p) (d + p)) 0) (d + p)) 0) as [I| -> ]; [|lia].
    apply repeat_spec in I. rewrite I.
    rewrite last_is_nth, ms_length. apply ms_le. unfold p, pad_dim. destruct (_ =? _); lia.
  - apply (fwf_mtab_new fp J (n + pad_dim d (2 * S0)) (d + pad_dim d (2 * S0)) forU m lg).
  - now rewrite repeat_length.
Qed.

Lemma slll_safe f0001 f501 fgap fmul2 fuel delta junk Jb S S0 lovmax L : 0 < S <= S0 -> slsafe S0 L ->
  safe (fun t => slsafe S0 (snd t) /\ scfg (snd t) = scfg L /\ (fst t <= Z.of_nat (sdorig L))%Z) (slll fp f0001 f501 fgap fmul2 fuel delta junk Jb S lovmax L).
Proof.
  intros HS (H1 & H2 & H3 & H4 & H5). unfold slll. apply safe_guard; [bool_lia|].
  eapply safe_bind; [apply sl_householder_safe; eauto|]. intros f0 W0.
  eapply safe_bind; [apply sl_padR_safe; eauto|]. intros f1 W1.
  eapply safe_bind; [eapply sl_loop_safe; eauto|].
  intros [[[[r s] f] sw] q1] (E & W & Hl & G). cbn [safe fst snd]. split; [|split; [reflexivity|exact G]].
  unfold slsafe. cbn [scfg sdorig si sf sswaps]. do 2 (split; [assumption|]). split; [eapply sok_eq; eauto|]. auto.
Qed.

Lemma sl_rotate_safe g S0 L : 1 <= g <= cd (scfg L) -> slsafe S0 L ->
  safe (fun L' => slsafe S0 L' /\ scfg L' = scfg L) (sl_rotate g L).
Proof.
  intros Hg (H1 & H2 & H3 & H4 & H5). unfold sl_rotate. apply safe_guard; [bool_lia|].
  eapply safe_bind with (P := fun _ => True); [apply safe_mfold; [exact I|]; intros; exact I|].
  intros B2 _. cbn [safe]. split; [|reflexivity]. unfold slsafe. cbn [scfg sdorig si sf sswaps]. auto.
Qed.

End S.
