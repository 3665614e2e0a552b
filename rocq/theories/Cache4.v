(** * Simulation of the whole of hlll by the reference *)
From Coq Require Import ZArith Lia List Bool Arith.
From Verif Require Import Base Spec Mat FP Hlll IntSteps HlllInt Structure Object Safety Fresh Cache Cache2 Cache3.
Import ListNotations.

Section Sim.
Context {F : Type} (fp : fpops F) (c : cfg).
Notation n := (cn c).
Notation d := (cd c).
Notation fz := (fzero fp).
Notation fwf := (Safety.fwf c).
Notation Sj s j := (nth j (iS s) 0).
Notation sgood := (sgood c).
Notation Pre := (Pre fp c).
Notation Post := (Post fp c).
Notation others := (others fp c).
Notation agree := (agree fp).
Notation agreeV := (agreeV fp c).
Notation relx := (relx c).
Hypothesis EX : expo_nonneg fp.

(** what is needed of the reference state *)
Record gwf (g : fst_ F) : Prop := {
  gw_R : wfm n d (fR g); gw_V : wfm n d (fV g); gw_n : length (fnB2 g) = d }.

Record rel0 (m : nat) (s : ist) (f g : fst_ F) : Prop := {
  r_gwf : gwf g;
  r_R : agree (iS s) m (fR f) (fR g);
  r_V : agreeV m f g;
  r_x : relx f g }.

Record relP (kappa : nat) (s : ist) (f g : fst_ F) : Prop := {
  rp_gwf : gwf g;
  rp_R : agree (iS s) (S kappa) (fR f) (fR g);
  rp_V : agreeV kappa f g;
  rp_x : relx f g;
  rp_n : nth kappa (fnB2 f) fz = nth kappa (fnB2 g) fz;
  rp_m : fnmax f = fnmax g }.

Lemma sgood_ND s : sgood s -> 0 < d -> d <= n.
Proof.
  intros G H. pose proof (g_gt c s G (d - 1) ltac:(lia)). pose proof (g_le c s G (d - 1) ltac:(lia)). lia.
Qed.

Lemma sgood_sok s : sgood s -> sok c s.
Proof. intros G j Hj. now apply (g_le c s G). Qed.

Lemma rcol_length V s kappa old : sgood s -> kappa < d -> length old = n -> length (rcol fp V s kappa old) = n.
Proof.
  intros G Hk L. pose proof (g_le c s G kappa Hk). unfold rcol.
  rewrite splice_length; rewrite ?map_length, ?seq_length; lia.
Qed.

Lemma rcol_nth V s kappa old i : sgood s -> kappa < d -> length old = n -> i < Sj s kappa ->
  nth i (rcol fp V s kappa old) fz = wch fp V (Sj s kappa) (bval fp s kappa) kappa i.
Proof.
  intros G Hk L Hi. pose proof (g_le c s G kappa Hk). unfold rcol.
  rewrite nth_splice by (rewrite map_length, seq_length; lia). rewrite map_length, seq_length.
  cbn [Nat.leb andb Nat.add]. replace (i <? Sj s kappa) with true by (symmetry; now apply Nat.ltb_lt).
  rewrite nth_map_seq by lia. now rewrite Nat.sub_0_r.
Qed.

Lemma post_of_out kappa s f f' : sgood s -> kappa < d -> Pre kappa s f -> hrout fp kappa s f f' -> fwf f' -> Post kappa s f'.
Proof.
  intros G Hk P H W'. destruct H. pose proof (p_wf _ _ _ _ _ P) as W.
  assert (EV : Vf fp f' = Vf fp f) by (unfold Vf; now rewrite h_V).
  assert (K1 : forall j, j <> kappa -> nth j (fkept f') false = nth j (fkept f) false)
    by (intros; rewrite h_kept; now apply nth_lupd_neq).
  assert (M1 : forall j, j <> kappa -> nth j (fkmin f') 0%Z = nth j (fkmin f) 0%Z)
    by (intros; rewrite h_kmin; now apply nth_lupd_neq).
  split; auto.
  - destruct (p_oth _ _ _ _ _ P) as [O1 O2 O3]. split.
    + intros j Hj. destruct (O1 j Hj) as [A1 A2]. split.
      * unfold kept. rewrite K1 by lia. exact A1.
      * intros k Hkj. unfold VRok. rewrite EV, h_VR2 by lia. now apply A2.
    + intros j Hj K. unfold kept in K. rewrite K1 in K by lia. destruct (O2 j Hj K) as [A1 A2].
      rewrite M1 by lia. split; auto. intros k Hkj. unfold VRok. rewrite EV, h_VR2 by lia. now apply A2.
    + intros j Hj N K. unfold kept in K. rewrite K1 in K by lia. destruct (O3 j Hj N K) as (A1 & A2 & A3).
      split; [|split].
      * intros i Hi. rewrite h_Bfp2 by (now left). now apply A1.
      * rewrite h_nB2, nth_lupd_neq by assumption. exact A2.
      * rewrite M1 by assumption. exact A3.
  - destruct (p_z _ _ _ _ _ P) as [Z|(Z1 & Z2 & Z3)]; [now left|right]. split; [assumption|]. split.
    + intros j i Hj Hi. destruct (Nat.eq_dec j kappa) as [->|N].
      * rewrite h_Bfp2 by (right; lia). now apply Z2.
      * rewrite h_Bfp2 by (now left). now apply Z2.
    + rewrite EV. exact Z3.
  - unfold kept. rewrite h_kept. apply nth_lupd_eq. rewrite (w_kept c f W). lia.
  - split; [|split].
    + exact h_Bfp1.
    + rewrite h_nB2. apply nth_lupd_eq. rewrite (w_nB2 c f W). lia.
    + rewrite h_kmin, nth_lupd_eq by (rewrite (w_kmin c f W); lia). lia.
  - intros k Hkk. unfold VRok. rewrite EV. now apply h_VR1.
  - intros k i H1 H2. rewrite EV. now apply h_Rk.
Qed.

Lemma householder_sim kappa s f g : sgood s -> kappa < d -> Pre kappa s f -> rel0 kappa s f g ->
  exists f', householder_r fp c s f kappa = Ok f' /\ Post kappa s f' /\ relP kappa s f' (householder_ref fp s g kappa) /\
    fdesc f' = fdesc f /\ fV f' = fV f /\ fkmin f' = lupd (fkmin f) kappa (Z.of_nat kappa) /\
    (forall j, j <> kappa -> nth j (fkept f') false = nth j (fkept f) false).
Proof.
  intros G Hk P R. destruct (householder_r_out fp c kappa s f G Hk P) as (f' & E & O).
  exists f'. split; [exact E|].
  pose proof (p_wf _ _ _ _ _ P) as W.
  pose proof (sgood_ND s G ltac:(lia)) as ND.
  assert (W' : fwf f').
  { pose proof (householder_r_safe fp c ND s f kappa W (sgood_sok s G) Hk) as S. rewrite E in S. exact S. }
  split; [now apply (post_of_out kappa s f)|].
  pose proof (g_gt c s G kappa Hk) as G1. pose proof (g_le c s G kappa Hk) as G2.
  destruct O. destruct R as [[RW1 RW2 RW3] RR RV Rx].
  assert (LR : length (col (fR f) kappa) = n) by (apply (wfm_col n d); [apply W|lia]).
  assert (LR' : length (col (fR g) kappa) = n) by (apply (wfm_col n d); [assumption|lia]).
  split; [|split; [|split; [|split]]]; auto.
  - unfold householder_ref. split; setf.
    + split; setf; auto.
      * apply wfm_lupd; auto. now apply (rcol_length (Vf fp g) s).
      * now rewrite lupd_length.
    + rewrite h_R. intros j i Hj Hi. unfold mget. rewrite !col_lupd, !(wfm_length n d) by (try apply W; auto).
      replace (kappa <? d) with true by (symmetry; now apply Nat.ltb_lt). rewrite andb_true_r.
      destruct (Nat.eqb_spec j kappa) as [->|N].
      * change (splice 0 _ (col (fR g) kappa)) with (rcol fp (Vf fp g) s kappa (col (fR g) kappa)).
        rewrite !rcol_nth by auto. apply wch_ext; auto; try lia.
        intros. apply RV; lia.
      * apply RR; [lia|assumption].
    + intros k i H1 H2. unfold Vf in *. setf. rewrite h_V. apply RV; auto.
    + destruct Rx as [Rx|[Rx|Rx]]; [now left|right; now left|right; right]. setf. now rewrite h_x.
    + rewrite h_nB2, !nth_lupd_eq; auto; try lia. rewrite (w_nB2 c f W). lia.
    + exact h_nmax.
  - intros. rewrite h_kept. now apply nth_lupd_neq.
Qed.

(** an orthogonalisation step that agrees with the reference one *)
Definition hr_sim (hr : ist -> fst_ F -> nat -> res (fst_ F)) : Prop :=
  (forall kappa s f g, sgood s -> kappa < d -> Pre kappa s f -> rel0 kappa s f g ->
   exists f', hr s f kappa = Ok f' /\ Post kappa s f' /\ relP kappa s f' (householder_ref fp s g kappa) /\
    fdesc f' = fdesc f /\ fV f' = fV f /\ fkmin f' = lupd (fkmin f) kappa (Z.of_nat kappa) /\
    (forall j, j <> kappa -> nth j (fkept f') false = nth j (fkept f) false)) /\
  (forall s f m kappa, hr s (set_nmax m f) kappa = hr s f kappa).

Lemma hr_sim_real : hr_sim (householder_r fp c).
Proof. split; [exact householder_sim|]. intros. unfold householder_r. setf. reflexivity. Qed.

Lemma hr_sim_nocache : hr_sim (householder_nc fp c).
Proof.
  split; [|intros; unfold householder_nc, householder_r; setf; reflexivity].
  intros kappa s f g G Hk P R. unfold householder_nc. set (f0 := set_kept (lupd (fkept f) kappa false) f).
  assert (K0 : forall j, j <> kappa -> nth j (fkept f0) false = nth j (fkept f) false)
    by (intros j Nj; unfold f0; setf; now apply nth_lupd_neq).
  assert (W : fwf f) by apply P.
  assert (K1 : ~ kept f0 kappa).
  { unfold kept, f0. setf. rewrite nth_lupd_eq by (rewrite (w_kept c f W); lia). discriminate. }
  assert (P0 : Pre kappa s f0).
  { destruct P as [_ [O1 O2 O3] Z M]. split.
    - destruct W. unfold f0. split; setf; auto.
      + now rewrite lupd_length.
      + intros j Hj K. destruct (Nat.eq_dec j kappa) as [->|Nj].
        * rewrite nth_lupd_eq in K by lia. discriminate.
        * rewrite nth_lupd_neq in K by assumption. auto.
    - split.
      + intros j Hj. destruct (O1 j Hj) as [A1 A2]. split; [unfold kept; rewrite K0 by lia; exact A1|exact A2].
      + intros j Hj K. unfold kept in K. rewrite K0 in K by lia. exact (O2 j Hj K).
      + intros j Hj Nj K. unfold kept in K. rewrite K0 in K by lia. exact (O3 j Hj Nj K).
    - exact Z.
    - intros K. contradiction. }
  assert (R0 : rel0 kappa s f0 g) by (destruct R as [A1 A2 A3 A4]; split; assumption).
  destruct (householder_sim kappa s f0 g G Hk P0 R0) as (f' & E & A1 & A2 & A3 & A4 & A5 & A6).
  exists f'. repeat (split; [assumption|]). intros j Nj. rewrite A6 by assumption. now apply K0.
Qed.

Variable hr : ist -> fst_ F -> nat -> res (fst_ F).
Hypothesis HS : hr_sim hr.


(** framing of [others] *)
Lemma others_frame kappa s s1 f f1 : others kappa s f -> kappa < d ->
  iS s1 = iS s -> (forall j, j <> kappa -> col (iB s1) j = col (iB s) j) ->
  (forall j, j <> kappa -> nth j (fkept f1) false = nth j (fkept f) false) ->
  fkmin f1 = fkmin f -> fVR f1 = fVR f -> fBfp f1 = fBfp f -> fnB2 f1 = fnB2 f -> fV f1 = fV f ->
  others kappa s1 f1.
Proof.
  intros [O1 O2 O3] Hk ES EB EK EM EVR EBf EN EV.
  assert (Eb : forall j, j <> kappa -> bval fp s1 j = bval fp s j).
  { intros j Hj. unfold bval, mget. now rewrite EB. }
  assert (EVf : Vf fp f1 = Vf fp f) by (unfold Vf; now rewrite EV).
  split.
  - intros j Hj. destruct (O1 j Hj) as [A1 A2]. unfold kept, VRok in *. rewrite EK, ES, EVR, EVf, Eb by lia. auto.
  - intros j Hj K. unfold kept in K. rewrite EK in K by lia. destruct (O2 j Hj K) as [A1 A2].
    unfold VRok in *. rewrite EM, ES, EVR, EVf, Eb by lia. auto.
  - intros j Hj N K. unfold kept in K. rewrite EK in K by lia. destruct (O3 j Hj N K) as (A1 & A2 & A3).
    unfold colok. rewrite EM, ES, EBf, EN, Eb by lia. auto.
Qed.

Lemma Post_frame kappa s f f1 : kappa < d -> Post kappa s f -> fwf f1 -> 
  f1 = set_x (fx f1) (set_R (fR f1) f) -> Post kappa s f1.
Proof.
  intros Hk [W O Z K C V R M] W1 E. rewrite E in *.
  split; auto; setf; auto. eapply others_frame; eauto.
Qed.

(** after a pass that changed column kappa, with its mark removed *)
Lemma Pre_after kappa s f s1 f1 g g1 : kappa < d -> Post kappa s f -> inner fp c kappa s f g s1 f1 g1 true ->
  Pre kappa s1 (set_kept (lupd (fkept f1) kappa false) f1).
Proof.
  intros Hk [W O Z K C V R M] [If Ig IW IW' IA Ix IS IB IBc IRc Ino].
  assert (W1 : fwf f1) by (rewrite If; apply fwf_x, fwf_R; assumption).
  split.
  - apply fwf_kept_false; auto.
  - apply (others_frame kappa s s1 f); auto; try (rewrite If; setf; reflexivity).
    intros j Hj. setf. rewrite nth_lupd_neq by assumption. now rewrite If.
  - unfold zalt, const_struct in *. rewrite IS. destruct Z as [Z|(Z1 & Z2 & Z3)]; [now left|right].
    rewrite If. setf. split; [exact Z1|split; [exact Z2|exact Z3]].
  - unfold kept. setf. rewrite nth_lupd_eq; [discriminate|]. rewrite (w_kept c f1 W1). lia.
Qed.

Lemma inner_g kappa s f g s1 f1 g1 b : gwf g -> inner fp c kappa s f g s1 f1 g1 b -> gwf g1.
Proof.
  intros [A1 A2 A3] [If Ig IW IW' IA Ix IS IB IBc IRc Ino]. rewrite Ig. split; setf; auto.
Qed.

Lemma rel0_after kappa s f s1 f1 g g1 b : kappa < d -> relP kappa s f g -> inner fp c kappa s f g s1 f1 g1 b ->
  rel0 kappa s1 (set_kept (lupd (fkept f1) kappa false) f1) (set_kept (lupd (fkept g1) kappa false) g1).
Proof.
  intros Hk [Gw RR RV Rx Rn Rm] I. pose proof (inner_g _ _ _ _ _ _ _ _ Gw I) as Gw1.
  destruct I as [If Ig IW IW' IA Ix IS IB IBc IRc Ino]. split.
  - destruct Gw1. split; setf; auto.
  - setf. rewrite IS. intros j i Hj Hi. apply IA; [lia|assumption].
  - intros k i H1 H2. rewrite If, Ig. unfold Vf in *. setf. now apply RV.
  - destruct Ix as [Ix|[Ix|Ix]]; [now left|right; now left|right; right]. exact Ix.
Qed.

Lemma relP_after kappa s f g f1 g1 : kappa < d -> relP kappa s f g -> inner fp c kappa s f g s f1 g1 false ->
  relP kappa s f1 g1.
Proof.
  intros Hk [Gw RR RV Rx Rn Rm] I. pose proof (inner_g _ _ _ _ _ _ _ _ Gw I) as Gw1.
  destruct I as [If Ig IW IW' IA Ix IS IB IBc IRc Ino]. split; auto.
  - intros k i H1 H2. rewrite If, Ig. unfold Vf in *. setf. now apply RV.
  - rewrite If, Ig. setf. assumption.
  - rewrite If, Ig. setf. assumption.
Qed.

Lemma sgood_steps s s1 : istepsP c s s1 -> iS s1 = iS s -> sgood s -> sgood s1.
Proof.
  intros H E [G1 G2 G3]. split; rewrite ?E; auto. now apply (isteps_bok c s s1).
Qed.

(** result of a reduction *)
Definition redrel (kappa : nat) (s : ist) (f : fst_ F) (x y : ist * fst_ F * bool) : Prop :=
  fst (fst x) = fst (fst y) /\ snd x = snd y /\
  sgood (fst (fst x)) /\ Post kappa (fst (fst x)) (snd (fst x)) /\
  relP kappa (fst (fst x)) (snd (fst x)) (snd (fst y)) /\
  fdesc (snd (fst x)) = fdesc f /\ iS (fst (fst x)) = iS s /\ fV (snd (fst x)) = fV f.

Lemma mu_anomaly_agree s kappa (f g : fst_ F) theta is : sgood s -> kappa < d -> (forall i, In i is -> i < kappa) ->
  agree (iS s) (S kappa) (fR f) (fR g) ->
  mu_anomaly fp c (fR f) kappa theta is = mu_anomaly fp c (fR g) kappa theta is.
Proof.
  intros G Hk His A. induction is as [|i is IH]; cbn [mu_anomaly]; auto.
  pose proof (His i (or_introl eq_refl)) as Hi. pose proof (sgood_ND s G ltac:(lia)) as ND.
  rewrite (rsim_gR fp c kappa s G Hk ND f g i kappa) by (auto; lia).
  rewrite (rsim_gR fp c kappa s G Hk ND f g i i) by (auto; lia).
  destruct (gR fp c (fR g) i kappa); cbn [bind]; auto. destruct (gR fp c (fR g) i i); cbn [bind]; auto.
  destruct (fcmp1 _ _ _); auto. apply IH. intros. apply His. now right.
Qed.

Lemma hs_loop_sim fuel : forall s f g vx pn kappa start, sgood s -> kappa < d -> start < kappa -> length vx = n ->
  Post kappa s f -> relP kappa s f g ->
  rsim (redrel kappa s f) (hs_loop_g fp c hr fuel s f vx pn kappa start)
                          (hs_loop_g fp c (hr_ref fp) fuel s g vx pn kappa start).
Proof.
  induction fuel as [|fuel IH]; intros s f g vx pn kappa start G Hk Hs L P R; cbn [hs_loop_g]; [exact I|].
  pose proof (sgood_ND s G ltac:(lia)) as ND.
  pose proof (hs_pass_sim fp c kappa s G Hk ND f g vx start Hs (w_R c f (q_wf _ _ _ _ _ P)) (gw_R g (rp_gwf _ _ _ _ R))
      (rp_R _ _ _ _ R) (rp_x _ _ _ _ R) L) as PS.
  destruct (hs_pass fp c s f vx kappa start) as [[[[s1 f1] vx1] sd]| |] eqn:Ep;
    destruct (hs_pass fp c s g vx kappa start) as [[[[s1' g1] vx1'] sd']| |]; try contradiction; try exact I.
  destruct PS as (E1 & E2 & L1 & E3 & In). cbn [fst snd] in *. subst vx1' sd' s1'. cbn [bind].
  pose proof (hs_pass_int fp c EX s f vx kappa start s1 f1 vx1 sd (bok_wfm c s (g_bok c s G)) Hs Hk Ep) as [SP _].
  pose proof (n_S _ _ _ _ _ _ _ _ _ _ In) as ES.
  pose proof (sgood_steps s s1 SP ES G) as G1'.
  destruct sd.
  - pose proof (Pre_after kappa s f s1 f1 g g1 Hk P In) as P2.
    pose proof (rel0_after kappa s f s1 f1 g g1 true Hk R In) as R2.
    destruct (proj1 HS kappa s1 _ _ G1' Hk P2 R2) as (f3 & E & P3 & R3 & D3 & V3 & _ & _).
    rewrite E. cbn [bind hr_ref].
    assert (En : nth kappa (fnB2 f1) fz = nth kappa (fnB2 g1) fz).
    { rewrite (n_f _ _ _ _ _ _ _ _ _ _ In), (n_g _ _ _ _ _ _ _ _ _ _ In). setf. apply (rp_n _ _ _ _ R). }
    setf. rewrite En, (rp_n _ _ _ _ R3).
    set (g3 := householder_ref fp s1 (set_kept (lupd (fkept g1) kappa false) g1) kappa) in *.
    assert (D : fdesc f3 = fdesc f /\ fV f3 = fV f).
    { rewrite D3, V3. rewrite (n_f _ _ _ _ _ _ _ _ _ _ In). setf. auto. }
    destruct (_ && _)%bool.
    + rewrite (mu_anomaly_agree s1 kappa f3 g3); auto.
      2:{ intros i Hi. apply in_seq in Hi. lia. }
      2:{ apply (rp_R _ _ _ _ R3). }
      destruct (mu_anomaly _ _ (fR g3) _ _ _) as [bad| |]; cbn [bind rsim]; auto.
      unfold redrel. cbn [fst snd]. intuition auto.
    + eapply rsim_mono; [|apply IH; auto].
      intros x y (A1 & A2 & A3 & A4 & A5 & A6 & A7 & A8). unfold redrel. destruct D as [D1 D2].
      rewrite A6, A7, A8, D1, D2, ES. auto 10.
  - cbn [rsim]. pose proof (n_no _ _ _ _ _ _ _ _ _ _ In eq_refl) as [-> E].
    pose proof (n_f _ _ _ _ _ _ _ _ _ _ In) as If.
    assert (W1 : fwf f1) by (rewrite If; apply fwf_x, fwf_R; [apply P|apply In]).
    unfold redrel. cbn [fst snd]. repeat (split; [solve [auto]|]).
    split; [now apply (Post_frame kappa s f)|]. split; [now apply (relP_after kappa s f g)|].
    rewrite If. setf. auto.
Qed.

Lemma hsizereduce_sim fuel s f g kappa fromk : sgood s -> 1 <= kappa -> kappa < d -> Pre kappa s f -> rel0 kappa s f g ->
  rsim (redrel kappa s f) (hsizereduce_g fp c hr fuel s f kappa fromk)
                          (hsizereduce_g fp c (hr_ref fp) fuel s g kappa fromk).
Proof.
  intros G H1 Hk P R. unfold hsizereduce_g.
  destruct (proj1 HS kappa s f g G Hk P R) as (f' & E & P' & R' & D & V & _ & _).
  rewrite E. cbn [bind hr_ref]. eapply rsim_mono; [|apply hs_loop_sim; auto].
  - intros x y (A1 & A2 & A3 & A4 & A5 & A6 & A7 & A8). unfold redrel. rewrite A6, A8, D, V. auto 10.
  - now apply hs_start_lt.
  - apply repeat_length.
Qed.

Lemma seysen_loop_sim fuel : (cseysen c <? 1)%Z = false ->
  forall s f g vx tmp n0 n1 kappa, sgood s -> 1 <= kappa -> kappa < d ->
  Post kappa s f -> relP kappa s f g ->
  rsim (fun x y => redrel kappa s f (x, false) (y, false)) (seysen_loop_g fp c hr fuel s f vx tmp n0 n1 kappa)
                          (seysen_loop_g fp c (hr_ref fp) fuel s g vx tmp n0 n1 kappa).
Proof.
  intros Sy. induction fuel as [|fuel IH]; intros s f g vx tmp n0 n1 kappa G H1 Hk P R; cbn [seysen_loop_g]; [exact I|].
  pose proof (sgood_ND s G ltac:(lia)) as ND.
  pose proof (seysen_pass_sim fp c kappa s G Hk ND f g vx tmp Sy (w_R c f (q_wf _ _ _ _ _ P)) (gw_R g (rp_gwf _ _ _ _ R))
      (rp_R _ _ _ _ R) (rp_x _ _ _ _ R)) as PS.
  destruct (seysen_pass fp c s f vx tmp kappa) as [[[[[s1 f1] vx1] tmp1] sd]| |] eqn:Ep;
    destruct (seysen_pass fp c s g vx tmp kappa) as [[[[[s1' g1] vx1'] tmp1'] sd']| |]; try contradiction; try exact I.
  destruct PS as (E1 & E2 & E3 & E4 & In). cbn [fst snd] in *. subst vx1' sd' s1' tmp1'. cbn [bind].
  pose proof (seysen_pass_int fp c EX s f vx tmp kappa s1 f1 vx1 tmp1 sd Hk Ep) as SP. apply isteps_P in SP.
  pose proof (n_S _ _ _ _ _ _ _ _ _ _ In) as ES.
  pose proof (sgood_steps s s1 SP ES G) as G1'.
  destruct sd.
  - pose proof (Pre_after kappa s f s1 f1 g g1 Hk P In) as P2.
    pose proof (rel0_after kappa s f s1 f1 g g1 true Hk R In) as R2.
    destruct (proj1 HS kappa s1 _ _ G1' Hk P2 R2) as (f3 & E & P3 & R3 & D3 & V3 & _ & _).
    rewrite E. cbn [bind hr_ref].
    assert (En : nth kappa (fnB2 f1) fz = nth kappa (fnB2 g1) fz).
    { rewrite (n_f _ _ _ _ _ _ _ _ _ _ In), (n_g _ _ _ _ _ _ _ _ _ _ In). setf. apply (rp_n _ _ _ _ R). }
    setf. rewrite En, (rp_n _ _ _ _ R3).
    set (g3 := householder_ref fp s1 (set_kept (lupd (fkept g1) kappa false) g1) kappa) in *.
    assert (D : fdesc f3 = fdesc f /\ fV f3 = fV f).
    { rewrite D3, V3. rewrite (n_f _ _ _ _ _ _ _ _ _ _ In). setf. auto. }
    destruct (negb _).
    + rewrite (rsim_gR fp c kappa s1 G1' Hk ND f3 g3 (kappa - 1) kappa) by (try lia; apply R3).
      rewrite (rsim_gR fp c kappa s1 G1' Hk ND f3 g3 (kappa - 1) (kappa - 1)) by (try lia; apply R3).
      destruct (gR fp c (fR g3) (kappa - 1) kappa); cbn [bind rsim]; auto.
      destruct (gR fp c (fR g3) (kappa - 1) (kappa - 1)); cbn [bind rsim]; auto.
      unfold redrel. cbn [fst snd]. intuition auto.
    + eapply rsim_mono; [|apply IH; auto].
      intros x y (A1 & A2 & A3 & A4 & A5 & A6 & A7 & A8). unfold redrel. destruct D as [D1 D2].
      cbn [fst snd] in *. rewrite A6, A7, A8, D1, D2, ES. auto 10.
  - cbn [rsim]. pose proof (n_no _ _ _ _ _ _ _ _ _ _ In eq_refl) as [-> E].
    pose proof (n_f _ _ _ _ _ _ _ _ _ _ In) as If.
    assert (W1 : fwf f1) by (rewrite If; apply fwf_x, fwf_R; [apply P|apply In]).
    unfold redrel. cbn [fst snd]. repeat (split; [solve [auto]|]).
    split; [now apply (Post_frame kappa s f)|]. split; [now apply (relP_after kappa s f g)|].
    rewrite If. setf. auto.
Qed.

(** the call of seysenreduce changes nmaxkappa before householder_r *)
Lemma Pre_nmax kappa s f m : m <= n -> Pre kappa s f -> Pre kappa s (set_nmax m f).
Proof.
  intros Hm [W O Z M]. split; auto.
  - now apply fwf_nmax.
  - destruct O as [O1 O2 O3]. split; auto.
Qed.

Lemma reduce_sim fuel s f g kappa : sgood s -> 1 <= kappa -> kappa < d -> Pre kappa s f -> rel0 kappa s f g ->
  rsim (redrel kappa s f) (reduce_g fp c hr fuel s f kappa)
                          (reduce_g fp c (hr_ref fp) fuel s g kappa).
Proof.
  intros G H1 Hk P R. unfold reduce_g. destruct (cseysen c <? 1)%Z eqn:Sy.
  - now apply hsizereduce_sim.
  - unfold seysenreduce_g.
    assert (P0 : Pre kappa s (set_nmax (Sj s kappa) f)) by (apply Pre_nmax; auto; now apply (g_le c s G)).
    assert (R0 : rel0 kappa s (set_nmax (Sj s kappa) f) (set_nmax (Sj s kappa) g)).
    { destruct R as [[A1 A2 A3] RR RV Rx]. split; auto. split; auto. }
    destruct (proj1 HS kappa s _ _ G Hk P0 R0) as (f' & E & P' & R' & D & V & _ & _).
    rewrite E. cbn [bind hr_ref].
    eapply rsim_bind; [apply seysen_loop_sim; eauto|].
    intros [s2 f2] [s2' g2] (A1 & A2 & A3 & A4 & A5 & A6 & A7 & A8). cbn [fst snd] in *. subst s2'. cbn [rsim].
    unfold redrel. cbn [fst snd]. rewrite A6, A8, D, V. setf. auto 10.
Qed.

End Sim.
