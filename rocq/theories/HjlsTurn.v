(** * HjlsTurn: one turn of Fgas::decomp in exact arithmetic, as long as no column has been set aside *)
From Coq Require Import ZArith Lia List Bool Arith Reals Lra.
From Verif Require Import Base Spec SpecReal Mat FP Hlll IntSteps HlllInt Structure Safety MatOpsFacts ZFgas Fgas FgasExact FgasSafe
  Cache Exact HHMath HjlsBound RGram MachInt.
Import ListNotations.
Local Open Scope R_scope.

(** ** No loop runs out of fuel *)
Lemma bind_nf {A B} (m : res A) (f : A -> res B) : m <> NoFuel -> (forall a, m = Ok a -> f a <> NoFuel) -> bind m f <> NoFuel.
Proof. intros H K. destruct m; cbn [bind]; [now apply K|discriminate|congruence]. Qed.
Lemma guard_nf {A} b (m : res A) : m <> NoFuel -> guard b m <> NoFuel.
Proof. destruct b; cbn; [auto|discriminate]. Qed.
Lemma mfold_nf {A S} (f : A -> S -> res S) l : (forall a s, In a l -> f a s <> NoFuel) -> forall s, mfold f l s <> NoFuel.
Proof.
  induction l as [|a l IH]; intros H s; cbn [mfold]; [discriminate|]. apply bind_nf; [apply H; now left|].
  intros b _. apply IH. intros; apply H; now right.
Qed.
Lemma mfold_app {A S} (f : A -> S -> res S) l l' s : mfold f (l ++ l') s = bind (mfold f l s) (mfold f l').
Proof. revert s. induction l as [|a l IH]; intros s; cbn [mfold app bind]; [reflexivity|]. destruct (f a s); cbn [bind]; auto. Qed.

Lemma down_S q : down (S q) 0 = S q :: down q 0.
Proof. unfold down. cbn [Nat.sub]. rewrite (seq_S (S q)). rewrite rev_app_distr. reflexivity. Qed.

Section HT.
Variables (fp : fpops R) (rt : rtops R R).
Hypothesis X : exact fp.
Hypothesis XR : rt_exact rt.
Hypothesis TF : forall x, tfp rt x = x.
Variables (d n dec : nat) (transf : bool) (gap : R -> bool) (epsilon : R) (ubound : Z).
Hypothesis DN : (d <= n)%nat.
Notation fz := (fzero fp).
Notation tz := (tzero rt).
Notation r z i j := (mget fz (gR z) i j).
Notation Vz := (Vz fp).
Notation Fz := (Fz rt).
Notation gwf := (FgasSafe.gwf d n).
Notation ghouseholder := (ghouseholder fp rt d n).
Notation ghsizereduce := (ghsizereduce fp rt d n dec transf).
Notation colok := (colok fp rt d).
Notation frame := (frame fp rt).
Notation fwf := (fwf d n).
Notation good := (good fp rt d n).
Notation gelim := (gelim fp rt d n dec transf).
Notation H_ghouse := (ghouse_fwf fp rt X TF d n dec gap epsilon DN).
Notation H_ghcol := (ghouseholder_col fp rt X TF d n dec gap epsilon DN).
Notation H_cokf := (colok_frame fp rt TF d n gap epsilon DN).
Notation H_steps := (gh_steps_exact fp rt X TF d n gap epsilon DN).
Notation H_colset := (colset_R fp rt TF d n gap epsilon DN).

(** ** The reflectors are isometries, null columns included *)
Definition iso (z : fgas R R) (k : nat) : Prop := forall u v, dot d (refl d (Vz z) k u) (refl d (Vz z) k v) = dot d u v.

Lemma colok_iso z j : (j < d)%nat -> colok z j -> iso z j /\
  forall i, (i < d)%nat -> Hs d (Vz z) (S j) (Fz z j) i = if (i <=? j)%nat then r z i j else 0.
Proof.
  intros Hj [A B C]. cbv zeta in C. set (w := Hs d (Vz z) j (Fz z j)) in *.
  set (q := sumR d _) in C. set (sg := if Rle_dec 0 (w j) then sqrt q else - sqrt q) in *. destruct C as [C1 C2].
  assert (Q0 : 0 <= q).
  { apply sumR_nonneg. intros i _. destruct (j <=? i)%nat; [|lra]. pose proof (Rle_0_sqr (w i)) as Q. unfold Rsqr in Q. lra. }
  destruct (Rle_lt_or_eq_dec _ _ Q0) as [Q|E].
  - destruct (hh_vector d (Vz z) j w Hj Q C2) as (H1 & H2 & H3 & _). split; [intros u v; now apply refl_dot|].
    intros i Hi. cbn [Hs]. fold w. destruct (Nat.leb_spec i j) as [L|L].
    + destruct (Nat.eq_dec i j) as [->|N]; [rewrite H3; now rewrite C1|]. rewrite refl_below by lia. symmetry. apply A. lia.
    + apply H2. lia.
  - assert (W0 : forall i, (j <= i < d)%nat -> w i = 0).
    { intros i Hi. assert (T : (if (j <=? i)%nat then w i * w i else 0) <= q).
      { apply (sumR_term d (fun i => if (j <=? i)%nat then w i * w i else 0) i); [|lia]. intros l _. destruct (j <=? l)%nat; [|lra].
        pose proof (Rle_0_sqr (w l)) as T. unfold Rsqr in T. lra. }
      replace (j <=? i)%nat with true in T by (symmetry; apply Nat.leb_le; lia). rewrite <- E in T.
      pose proof (Rle_0_sqr (w i)) as T2. unfold Rsqr in T2. apply Rsqr_0_uniq. unfold Rsqr. lra. }
    assert (SG : sg = 0) by (unfold sg; rewrite <- E, sqrt_0; destruct (Rle_dec 0 (w j)); lra).
    assert (V0 : forall i, (i < d)%nat -> vk (Vz z) j i = 0).
    { intros i Hi. unfold vk. destruct (Nat.leb_spec j i) as [L|L]; [|reflexivity]. rewrite C2 by lia. rewrite (W0 i) by lia. rewrite (W0 j) by lia.
      rewrite SG. unfold Rdiv. destruct (i =? j)%nat; ring. }
    assert (RI : forall u i, (i < d)%nat -> refl d (Vz z) j u i = u i) by (intros u i Hi; unfold refl; rewrite V0 by assumption; ring).
    split; [intros u v; apply dot_ext; intros; now apply RI|].
    intros i Hi. cbn [Hs]. fold w. rewrite RI by assumption. destruct (Nat.leb_spec i j) as [L|L]; [|apply W0; lia].
    destruct (Nat.eq_dec i j) as [->|N]; [rewrite C1, SG, W0 by lia; ring|]. symmetry. apply A. lia.
Qed.

Lemma iso_Hs z K : (forall k, (k < K)%nat -> iso z k) -> forall u v, dot d (Hs d (Vz z) K u) (Hs d (Vz z) K v) = dot d u v.
Proof. induction K as [|K IH]; intros I u v; cbn [Hs]; [reflexivity|]. rewrite I by lia. apply IH. auto. Qed.

(** a column of F seen through the first K reflectors *)
Lemma good_Hs z K : (K <= d)%nat -> good K z -> forall j i, (j < K)%nat -> (i < d)%nat ->
  Hs d (Vz z) K (Fz z j) i = if (i <=? j)%nat then r z i j else 0.
Proof.
  intros KD [_ G] j i Hj Hi. destruct (colok_iso z j ltac:(lia) (G j Hj ltac:(lia))) as [_ U].
  rewrite (Hs_stable d (Vz z) j K); [now apply U|lia|]. intros l Hl. rewrite U by lia.
  now replace (l <=? j)%nat with false by (symmetry; apply Nat.leb_gt; lia).
Qed.

Lemma good_rf z K : (K <= d)%nat -> good K z -> rf d K (Fz z) (fun i j => r z i j).
Proof.
  intros KD G.
  assert (RE : forall j i, (j < K)%nat -> (i < d)%nat -> (if (i <=? j)%nat then r z i j else 0) = r z i j).
  { intros j i Hj Hi. destruct (Nat.leb_spec i j); [reflexivity|]. symmetry. destruct G as [_ G]. apply (co_below _ _ _ _ _ (G j Hj ltac:(lia))). lia. }
  split.
  - intros i j Hi Hj. destruct G as [_ G]. apply (co_below _ _ _ _ _ (G j Hj ltac:(lia))). lia.
  - intros j k Hj Hk. rewrite <- (iso_Hs z K).
    + apply dot_ext; intros i Hi; rewrite (good_Hs z K) by assumption; now apply RE.
    + intros l Hl. apply colok_iso; [lia|]. apply G; lia.
Qed.

(** ** The columns of F during an elimination *)
Lemma xcol_Fval kappa i xz x x' : (kappa < n)%nat -> wfm d n (xF x) -> xcol rt d n dec transf kappa i xz x = Ok x' ->
  forall a j, (a < d)%nat -> mget tz (xF x') a j = if (j =? kappa)%nat then mget tz (xF x) a j - IZR xz * mget tz (xF x) a i else mget tz (xF x) a j.
Proof.
  intros Hk W H a j Ha. unfold xcol in H. cbv zeta in H. apply guard_Ok in H as [_ H]. binv H. injection H as <-. cbn [xF].
  rewrite (mget_colop tz _ d n) by assumption. cbn [Nat.leb andb].
  assert (G : (a <? 0 + d)%nat = true) by (apply Nat.ltb_lt; lia). rewrite G, andb_true_r.
  destruct (Nat.eqb_spec j kappa) as [->|N]; [|reflexivity].
  destruct (Z.eqb_spec xz (-1)) as [->|]; [rewrite (te_add _ XR); lra|].
  destruct (Z.eqb_spec xz 1) as [->|]; [rewrite (te_sub _ XR); lra|]. rewrite (te_submul _ XR), (te_ofz _ XR). lra.
Qed.

(** one elimination *)
Lemma gelim_step kappa i z b z' b' : (kappa < n)%nat -> (i < kappa)%nat -> fwf z -> gelim kappa i (z, b) = Ok (z', b') ->
  (i < d)%nat /\ fwf z' /\ gV z' = gV z /\ exists k : Z, Rabs (r z i kappa / r z i i - IZR k) <= / 2 /\
  (forall a j, (a < d)%nat -> Fz z' j a = addc (IZR k) i kappa (Fz z) j a) /\
  (forall a j, (a < d)%nat -> r z' a j = if ((j =? kappa)%nat && (a <? i)%nat)%bool then r z a kappa - IZR k * r z a i else r z a j) /\
  (b' = false -> z' = z /\ b = false /\ k = 0%Z).
Proof.
  intros Hk Hi (W1 & W2 & W3) H. unfold Fgas.gelim in H. binv H. binv H. unfold rget in Ha, Ha0.
  apply guard_Ok in Ha as [G1 Ha]. apply guard_Ok in Ha0 as [_ Ha0]. injection Ha as <-. injection Ha0 as <-.
  apply andb_true_iff in G1 as [G1 _]. apply Nat.ltb_lt in G1. split; [exact G1|].
  rewrite (e_div fp X) in H. destruct (e_rnd fp X (r z i kappa / r z i i)) as (k & Ek & Bk). rewrite Ek, (e_setf fp X) in H.
  destruct (fnz fp (IZR k)) eqn:NZ.
  - binv H. injection H as <- <-. pose proof (xcol_Fval _ _ _ _ _ Hk W2 Ha) as XF.
    apply xcol_F in Ha as [Q1 Q2]; [|exact Hi|exact W2]. destruct W1 as (A & B & C).
    split; [split; [split; [|split]; [cbn [gR set_gR set_gx]; now apply wfm_colop|exact B|exact C]|split; [exact Q1|exact W3]]|].
    split; [reflexivity|]. exists k. split; [exact Bk|]. split; [|split; [|discriminate]].
    + intros a0 j Ha0. unfold HjlsBound.Fz, addc. cbn [set_gR gx set_gx]. rewrite XF by assumption. reflexivity.
    + intros a0 j Ha0. cbn [gR set_gR set_gx]. rewrite (mget_colop fz _ d n) by assumption. cbn [Nat.leb andb Nat.add].
      destruct (Nat.eqb_spec j kappa) as [->|N]; [|reflexivity]. cbn [andb]. destruct (a0 <? i)%nat; [|reflexivity].
      destruct (Z.eqb_spec k (-1)) as [->|]; [rewrite (e_add fp X); lra|].
      destruct (Z.eqb_spec k 1) as [->|]; [rewrite (e_sub fp X); lra|]. rewrite (e_submul fp X). lra.
  - injection H as <- <-. assert (K0 : IZR k = 0).
    { destruct (Req_dec (IZR k) 0) as [E|E]; [exact E|]. apply (e_nz fp X) in E. congruence. }
    split; [split; [exact W1|split; [exact W2|exact W3]]|]. split; [reflexivity|]. exists k. split; [exact Bk|]. split; [|split].
    + intros a j _. unfold addc. rewrite K0. destruct (j =? kappa)%nat; [ring|reflexivity].
    + intros a j _. rewrite K0. destruct (Nat.eqb_spec j kappa) as [->|N]; [|reflexivity]. cbn [andb]. destruct (a <? i)%nat; [ring|reflexivity].
    + intros ->. split; [reflexivity|]. split; [reflexivity|]. now apply eq_IZR.
Qed.

(** any R factor keeps its diagonal *)
Definition keeps (z z' : fgas R R) : Prop := forall K rr, (K <= d)%nat -> rf d K (Fz z) rr ->
  exists rr', rf d K (Fz z') rr' /\ forall j, (j < K)%nat -> rr' j j = rr j j.
Lemma keeps_refl z z' : gx z' = gx z -> keeps z z'.
Proof. intros E K rr _ H. exists rr. split; [|reflexivity]. unfold HjlsBound.Fz in *. now rewrite E. Qed.
Lemma keeps_trans a b c : keeps a b -> keeps b c -> keeps a c.
Proof.
  intros H1 H2 K rr L H. destruct (H1 K rr L H) as (r1 & A & B). destruct (H2 K r1 L A) as (r2 & C & D).
  exists r2. split; [exact C|]. intros j Hj. now rewrite D, B.
Qed.

Lemma keeps_addc x i k z z' : (i < k)%nat -> (forall a j, (a < d)%nat -> Fz z' j a = addc x i k (Fz z) j a) -> keeps z z'.
Proof.
  intros Hi E K rr L H. destruct (Nat.lt_ge_cases k K) as [Hk|Hk].
  - pose proof (rf_addc d K (Fz z) rr x i k Hi Hk L H) as Q. eexists. split; [eapply rf_ext; [|exact Q]|].
    + intros j a Hj Ha. symmetry. now apply E.
    + intros j Hj. cbv beta. destruct (Nat.eqb_spec j k) as [->|N]; [|reflexivity]. destruct H as [U _]. rewrite (U k i) by lia. ring.
  - exists rr. split; [|reflexivity]. eapply rf_ext; [|exact H]. intros j a Hj Ha. rewrite E by assumption. unfold addc.
    now replace (j =? k)%nat with false by (symmetry; apply Nat.eqb_neq; lia).
Qed.

Lemma gelims_keeps kappa l : (kappa < n)%nat -> (forall i, In i l -> (i < kappa)%nat) -> forall z b z' b', fwf z ->
  mfold (gelim kappa) l (z, b) = Ok (z', b') -> keeps z z'.
Proof.
  intros Hk. induction l as [|i l IH]; intros Hl z b z' b' W H; cbn [mfold] in H.
  - injection H as <- _. now apply keeps_refl.
  - binv H. destruct a as [z1 b1]. apply gelim_step in Ha as (_ & W1 & _ & k & _ & EF & _); [|exact Hk|apply Hl; now left|exact W].
    apply IH in H; [|intros; apply Hl; now right|exact W1]. eapply keeps_trans; [|exact H].
    eapply keeps_addc; [apply Hl; now left|exact EF].
Qed.

Lemma ghouse_gx kappa z z' : (kappa < n)%nat -> fwf z -> ghouseholder kappa z = Ok z' -> gx z' = gx z.
Proof. intros Hk (W1 & W2 & W3) H. apply H_ghcol in H as (_ & _ & E & _); auto. Qed.

Lemma ghs_loop_keeps fuel kappa : (kappa < n)%nat -> forall z z', fwf z ->
  ghs_loop fp rt d n dec transf fuel kappa z = Ok z' -> keeps z z'.
Proof.
  intros Hk. induction fuel as [|fuel IH]; intros z z' W H; cbn [ghs_loop] in H; [discriminate|].
  binv H. destruct a as [z1 sd]. pose proof Ha as Ha'.
  apply gelims_keeps in Ha; [|exact Hk|intros i Hi; eapply elim_list_lt; eauto|exact W].
  apply gelims_frame in Ha' as (W1 & _); [|exact Hk|intros i Hi; eapply elim_list_lt; eauto|exact W].
  destruct sd; [|injection H as <-; exact Ha].
  binv H. pose proof (ghouse_gx _ _ _ Hk W1 Ha0) as G. apply H_ghouse in Ha0 as (W2 & _); [|exact Hk|exact W1].
  destruct (flt fp _ _).
  - apply IH in H; [|exact W2]. eapply keeps_trans; [exact Ha|]. eapply keeps_trans; [apply keeps_refl; exact G|exact H].
  - injection H as <-. eapply keeps_trans; [exact Ha|]. now apply keeps_refl.
Qed.

Lemma ghsize_keeps fuel kappa z z' : (kappa < n)%nat -> fwf z -> ghsizereduce fuel kappa z = Ok z' -> keeps z z'.
Proof.
  intros Hk W H. unfold Fgas.ghsizereduce in H. binv H. pose proof (ghouse_gx _ _ _ Hk W Ha) as G.
  apply H_ghouse in Ha as (W2 & _); [|exact Hk|exact W]. apply ghs_loop_keeps in H; [|exact Hk|exact W2].
  eapply keeps_trans; [apply keeps_refl; exact G|exact H].
Qed.

(** ** Size reduction *)
(** row i of R in column kappa is the component i of the column of F through min(kappa,d) reflectors *)
Definition seen (z : fgas R R) (kappa i : nat) : R := Hs d (Vz z) (min kappa d) (Fz z kappa) i.
Definition tracks (z : fgas R R) (kappa m : nat) : Prop := forall i, (i < m)%nat -> r z i kappa = seen z kappa i.
Definition sred (z : fgas R R) (kappa : nat) : Prop := forall i, (i < min kappa d)%nat -> Rabs (r z i kappa) <= Rabs (r z i i) / 2.

Lemma ghouse_tracks kappa z z' : (kappa < n)%nat -> fwf z -> ghouseholder kappa z = Ok z' -> tracks z' kappa (min kappa d).
Proof.
  intros Hk (W1 & W2 & W3) H i Hi. destruct (Nat.lt_ge_cases kappa d) as [Lt|Ge].
  - apply H_ghcol in H as (_ & _ & _ & _ & _ & C); auto. unfold seen. rewrite Nat.min_l in * by lia.
    apply (co_above _ _ _ _ _ (C Lt)). exact Hi.
  - unfold seen. rewrite Nat.min_r in * by lia.
    unfold Fgas.ghouseholder in H. apply guard_Ok in H as [_ H].
    set (g := fun i => tfp rt (mget tz (xF (gx z)) i kappa)) in H.
    destruct (H_colset (gR z) kappa g (proj1 W1) Hk) as (WM & MN & MK). set (M := lupd (gR z) kappa _) in *. cbv zeta in WM, MN, MK.
    cbn [bind] in H. binv H. set (z2 := set_gN (lupd (gN (set_gR M z)) kappa a) (set_gR M z)) in H.
    assert (WW : gwf z2).
    { unfold z2, FgasSafe.gwf. cbn [set_gN set_gR gR gV gN]. destruct W1 as (A & B & C). split; [exact WM|]. split; [exact B|]. now rewrite lupd_length. }
    assert (X2 : gx z2 = gx z) by reflexivity. assert (V2 : gV z2 = gV z) by reflexivity.
    assert (R2 : gR z2 = M) by reflexivity. assert (L2 : gldim z2 = 0%nat) by (exact W3).
    clear Ha. clearbody z2. cbv zeta in H. rewrite L2, Nat.sub_0_r in H.
    replace (kappa <? d)%nat with false in H by (symmetry; apply Nat.ltb_ge; lia).
    destruct (H_steps kappa d z2 WW Hk (le_n _)) as (z3 & E3 & W3' & X3 & V3 & _ & L3 & F3 & R3). rewrite E3 in H. injection H as <-.
    rewrite R3 by lia. replace (Vz z3) with (Vz z2) by (unfold HjlsBound.Vz; now rewrite V3). apply Hs_ext; [|lia].
    intros l Hl. rewrite R2, MK by assumption. unfold g. rewrite TF. unfold HjlsBound.Fz. now rewrite X3, X2.
Qed.

Lemma seen_addc x i kappa z z' m : (kappa < n)%nat -> (i < kappa)%nat -> (i < d)%nat -> good (min kappa d) z -> gV z' = gV z -> m = min kappa d ->
  (forall a j, (a < d)%nat -> Fz z' j a = addc x i kappa (Fz z) j a) ->
  forall a, (a < d)%nat -> seen z' kappa a = seen z kappa a - x * if (a <=? i)%nat then r z a i else 0.
Proof.
  intros Hk Hi Hd G EV -> EF a Ha. unfold seen. replace (Vz z') with (Vz z) by (unfold HjlsBound.Vz; now rewrite EV).
  rewrite (Hs_ext d (Vz z) (min kappa d) (Fz z' kappa) (fun a => Fz z kappa a - x * Fz z i a)).
  - rewrite Hs_sub by assumption. rewrite (good_Hs z (min kappa d) (Nat.le_min_r _ _) G i a) by lia. reflexivity.
  - intros l Hl. rewrite EF by assumption. unfold addc. now rewrite Nat.eqb_refl.
  - assumption.
Qed.

Lemma good_frame kappa z z' : (kappa < n)%nat -> frame (fun j => j = kappa) z z' -> fwf z' -> good kappa z -> good kappa z'.
Proof.
  intros Hk F W [_ G]. split; [exact W|]. intros j Hj Hd. apply (H_cokf (fun j => j = kappa) z z'); auto. intros k L ->. lia.
Qed.

Lemma good_less K K' z : (K' <= K)%nat -> good K z -> good K' z.
Proof. intros L [W G]. split; [exact W|]. intros j Hj Hd. apply G; lia. Qed.

(** one pass: rows 0..q *)
Lemma elim_pass kappa : (kappa < n)%nat -> forall q z b z' b', (q < min kappa d)%nat -> good (min kappa d) z ->
  (forall i, (i < min kappa d)%nat -> r z i i <> 0) ->
  (forall i, (i <= q)%nat -> r z i kappa = seen z kappa i) ->
  mfold (gelim kappa) (down q 0) (z, b) = Ok (z', b') ->
  good (min kappa d) z' /\ gV z' = gV z /\ frame (fun j => j = kappa) z z' /\
  (forall i, (i <= q)%nat -> Rabs (seen z' kappa i) <= Rabs (r z i i) / 2) /\
  (forall i, (q < i < d)%nat -> seen z' kappa i = seen z kappa i).
Proof.
  intros Hk. set (m := min kappa d).
  assert (ST : forall i z b z' b', (i < m)%nat -> good m z -> (forall i, (i < m)%nat -> r z i i <> 0) -> r z i kappa = seen z kappa i ->
    gelim kappa i (z, b) = Ok (z', b') ->
    good m z' /\ gV z' = gV z /\ frame (fun j => j = kappa) z z' /\ Rabs (seen z' kappa i) <= Rabs (r z i i) / 2 /\
    (forall a, (i < a < d)%nat -> seen z' kappa a = seen z kappa a) /\
    (forall a, (a < i)%nat -> r z a kappa = seen z kappa a -> r z' a kappa = seen z' kappa a)).
  { intros i z b z' b' Hi G NZ T H. pose proof H as H'. pose proof (proj1 G) as W.
    apply gelim_step in H as (Hd & W' & EV & k & Bk & EF & ER & _); [|exact Hk|lia|exact W].
    assert (FR : frame (fun j => j = kappa) z z').
    { destruct (gelims_frame fp rt d n dec transf kappa [i] Hk ltac:(intros l [<-|[]]; lia) z b z' b' W) as (_ & FR & _); [|exact FR].
      cbn [mfold]. rewrite H'. reflexivity. }
    assert (SE := seen_addc (IZR k) i kappa z z' m Hk ltac:(lia) Hd G EV eq_refl EF).
    split; [|split; [exact EV|split; [exact FR|split; [|split]]]].
    - split; [exact W'|]. intros j Hj Hjd. apply (H_cokf (fun j => j = kappa) z z'); auto; [|now apply G]. intros l L ->. lia.
    - rewrite SE by assumption. rewrite Nat.leb_refl, <- T. specialize (NZ i Hi).
      replace (r z i kappa - IZR k * r z i i) with ((r z i kappa / r z i i - IZR k) * r z i i) by (field; assumption).
      rewrite Rabs_mult. pose proof (Rabs_pos (r z i i)). nra.
    - intros a Ha. rewrite SE by lia. replace (a <=? i)%nat with false by (symmetry; apply Nat.leb_gt; lia). ring.
    - intros a Ha Ta. rewrite SE, ER by lia. rewrite Nat.eqb_refl. replace (a <? i)%nat with true by (symmetry; apply Nat.ltb_lt; lia).
      replace (a <=? i)%nat with true by (symmetry; apply Nat.leb_le; lia). cbn [andb]. now rewrite Ta. }
  induction q as [|q IH]; intros z b z' b' Hq G NZ T H.
  - change (down 0 0) with [0%nat] in H. cbn [mfold] in H. binv H. injection H as ->.
    destruct (ST 0%nat z b z' b' Hq G NZ (T 0%nat (le_n _)) Ha) as (A & B & C & D & E & _).
    split; [exact A|]. split; [exact B|]. split; [exact C|]. split; [intros i Hi; replace i with 0%nat by lia; exact D|exact E].
  - rewrite down_S in H. cbn [mfold] in H. binv H. destruct a as [z1 b1].
    destruct (ST (S q) z b z1 b1 Hq G NZ (T (S q) (le_n _)) Ha) as (A & B & C & D & E & K).
    assert (RD : forall i, (i < m)%nat -> r z1 i i = r z i i) by (intros i Hi; apply (fr_R _ _ _ _ _ C); lia).
    destruct (IH z1 b1 z' b') as (A2 & B2 & C2 & D2 & E2); auto; [lia|intros i Hi; rewrite RD by assumption; auto|intros i Hi; apply K; [lia|apply T; lia]|].
    split; [exact A2|]. split; [congruence|]. split; [eapply frame_trans; eauto|]. split.
    + intros i Hi. destruct (Nat.eq_dec i (S q)) as [->|N].
      * rewrite E2 by lia. exact D.
      * rewrite <- (RD i) by lia. apply D2. lia.
    + intros i Hi. rewrite E2 by lia. apply E. lia.
Qed.

Lemma elim_list_down kappa : (0 < min kappa d)%nat -> elim_list d kappa 0 = down (min kappa d - 1) 0.
Proof.
  intros H. unfold elim_list. replace (kappa =? 0)%nat with false by (symmetry; apply Nat.eqb_neq; lia).
  replace (d <=? 0)%nat with false by (symmetry; apply Nat.leb_gt; lia). cbn [orb]. f_equal. lia.
Qed.
Lemma elim_list_nil kappa : min kappa d = 0%nat -> elim_list d kappa 0 = [].
Proof.
  intros H. unfold elim_list. destruct (Nat.eqb_spec kappa 0); [reflexivity|]. cbn [orb].
  replace (d <=? 0)%nat with true by (symmetry; apply Nat.leb_le; lia). reflexivity.
Qed.

Definition pre (z : fgas R R) (kappa : nat) : Prop :=
  good (min kappa d) z /\ (forall i, (i < min kappa d)%nat -> r z i i <> 0) /\ tracks z kappa (min kappa d).

Lemma ghs_pass kappa z z' b' : (kappa < n)%nat -> pre z kappa -> mfold (gelim kappa) (elim_list d kappa (gldim z)) (z, false) = Ok (z', b') ->
  good (min kappa d) z' /\ frame (fun j => j = kappa) z z' /\
  (forall i, (i < min kappa d)%nat -> Rabs (seen z' kappa i) <= Rabs (r z i i) / 2) /\ (b' = false -> z' = z).
Proof.
  intros Hk (G & NZ & T) H. pose proof (proj1 G) as W. pose proof W as (_ & _ & L0). rewrite L0 in H.
  destruct (gelims_frame fp rt d n dec transf kappa _ Hk (fun i Hi => elim_list_lt d kappa 0 i Hi) z false z' b' W H) as (A & B & _ & D).
  destruct (Nat.eq_dec (min kappa d) 0) as [E|N].
  - rewrite (elim_list_nil kappa E) in H. cbn [mfold] in H. injection H as <- <-. split; [exact G|]. split; [exact B|]. split; [intros; lia|auto].
  - rewrite elim_list_down in H by lia. destruct (elim_pass kappa Hk (min kappa d - 1) z false z' b') as (G' & _ & F' & Q & _); auto; try lia.
    + intros i Hi. apply T. lia.
    + split; [exact G'|]. split; [exact F'|]. split; [intros i Hi; apply Q; lia|exact D].
Qed.

Lemma ghs_loop_sred fuel kappa : (kappa < n)%nat -> forall z z', pre z kappa ->
  ghs_loop fp rt d n dec transf fuel kappa z = Ok z' -> sred z' kappa /\ tracks z' kappa (min kappa d).
Proof.
  intros Hk. induction fuel as [|fuel IH]; intros z z' P H; cbn [ghs_loop] in H; [discriminate|].
  binv H. destruct a as [z1 sd]. apply ghs_pass in Ha as (G1 & F1 & Q1 & B1); [|exact Hk|exact P]. destruct P as (G & NZ & T).
  destruct sd.
  - binv H. pose proof (ghouse_tracks kappa z1 a Hk (proj1 G1) Ha) as T2.
    assert (RD : forall i, (i < min kappa d)%nat -> r z1 i i = r z i i) by (intros i Hi; apply (fr_R _ _ _ _ _ F1); lia).
    pose proof (ghouse_gx kappa z1 a Hk (proj1 G1) Ha) as EX.
    apply H_ghouse in Ha as (W2 & F2 & _ & _); [|exact Hk|exact (proj1 G1)].
    assert (RD2 : forall i, (i < min kappa d)%nat -> r a i i = r z i i) by (intros i Hi; rewrite <- RD by assumption; apply (fr_R _ _ _ _ _ F2); lia).
    assert (G2 : good (min kappa d) a).
    { split; [exact W2|]. intros j Hj Hd. apply (H_cokf (fun j => j = kappa) z1 a); auto; [intros k L ->; lia|now apply G1]. }
    assert (S2 : forall i, (i < min kappa d)%nat -> seen a kappa i = seen z1 kappa i).
    { intros i Hi. unfold seen. rewrite (Hs_ext d (Vz a) (min kappa d) (Fz a kappa) (Fz z1 kappa)) by (unfold HjlsBound.Fz; rewrite ?EX; auto; lia).
      apply Hs_V_ext; [|lia]. intros k l K1 K2. apply (fr_V _ _ _ _ _ F2). lia. }
    destruct (flt fp _ _).
    + apply IH in H; [exact H|]. split; [exact G2|]. split; [intros i Hi; rewrite RD2 by assumption; auto|exact T2].
    + injection H as <-. split; [|exact T2]. intros i Hi. rewrite T2, S2, RD2 by assumption. now apply Q1.
  - injection H as <-. rewrite (B1 eq_refl) in *. split; [|exact T]. intros i Hi. rewrite T by assumption. now apply Q1.
Qed.

Lemma ghsize_sred fuel kappa z z' : (kappa < n)%nat -> good (min kappa d) z -> (forall i, (i < min kappa d)%nat -> r z i i <> 0) ->
  ghsizereduce fuel kappa z = Ok z' -> sred z' kappa /\ tracks z' kappa (min kappa d).
Proof.
  intros Hk G NZ H. unfold Fgas.ghsizereduce in H. binv H.
  pose proof (ghouse_tracks kappa z a Hk (proj1 G) Ha) as T2.
  apply H_ghouse in Ha as (W2 & F2 & _ & _); [|exact Hk|exact (proj1 G)].
  apply ghs_loop_sred in H; [exact H|exact Hk|]. split; [|split; [|exact T2]].
  - split; [exact W2|]. intros j Hj Hd. apply (H_cokf (fun j => j = kappa) z a); auto; [intros k L ->; lia|now apply G].
  - intros i Hi. replace (r a i i) with (r z i i) by (symmetry; apply (fr_R _ _ _ _ _ F2); lia). auto.
Qed.
End HT.
