(** * The equations between R, V and B that the main loop of hlll keeps, in any arithmetic *)
From Coq Require Import ZArith Lia List Bool Arith.
From Verif Require Import Base Spec Mat FP Hlll IntSteps HlllInt Structure Object Safety Fresh Cache Cache2 Cache3 Cache4 Cache5 BackErr.
Import ListNotations.

Section Loop.
Context {F : Type} (fp : fpops F) (c : cfg).
Hypothesis EX : expo_nonneg fp.
Notation n := (cn c).
Notation d := (cd c).
Notation fz := (fzero fp).
Notation Sj s j := (nth j (iS s) 0).
Notation b s j := (bval fp s j).
Notation V g := (Vf fp g).
Notation r g i j := (mget fz (fR g) i j).
Notation sgood := (sgood c).
Notation gwf := (gwf c).
Notation xc s g j := (wch fp (V g) (Sj s j) (b s j) j).

(** column j of R and V are those of the reflectors applied to column j of B *)
Definition colF (s : ist) (g : fst_ F) (j : nat) : Prop :=
  (forall i, i < j -> r g i j = xc s g j i) /\
  r g j j = hv_diag fp (xc s g j) j (Sj s j) /\
  (forall i, j <= i < Sj s j -> V g i j = hv_vec fp (xc s g j) j (Sj s j) i) /\
  (forall i, Sj s j <= i < n -> V g i j = fz).

Record CH (kappa : nat) (s : ist) (g : fst_ F) : Prop := {
  ch_w : gwf g; ch_s : sgood s; ch_c : forall j, j < kappa -> colF s g j }.

Definition curF (s : ist) (g : fst_ F) (kappa : nat) : Prop :=
  (forall i, i < Sj s kappa -> r g i kappa = xc s g kappa i) /\ fnmax g = Sj s kappa.

Lemma hv_diag_ext x x' k m : k < m -> (forall i, k <= i < m -> x i = x' i) -> hv_diag fp x k m = hv_diag fp x' k m.
Proof. intros H E. unfold hv_diag, hv_nr. rewrite (dotf_ext fp x x x' x') by auto. rewrite E by lia. reflexivity. Qed.

Lemma hv_vec_ext x x' k m i : k <= i < m -> (forall i, k <= i < m -> x i = x' i) -> hv_vec fp x k m i = hv_vec fp x' k m i.
Proof.
  intros H E. unfold hv_vec, hv_s2, hv_s, hv_nr. rewrite (dotf_ext fp x x x' x') by (auto; lia). rewrite !(E k), (E i) by lia. reflexivity.
Qed.

Lemma colF_ext s s' g g' j : sgood s -> j < d -> Sj s' j = Sj s j -> (forall i, b s' j i = b s j i) ->
  (forall k i, k <= j -> k <= i < n -> V g' i k = V g i k) -> (forall i, i <= j -> r g' i j = r g i j) ->
  colF s g j -> colF s' g' j.
Proof.
  intros G Hj ES EB EV ER (A1 & A2 & A3 & A4). pose proof (g_gt c s G j Hj) as G1. pose proof (g_le c s G j Hj) as G2.
  assert (E : forall i, i < Sj s j -> xc s' g' j i = xc s g j i).
  { intros i Hi. rewrite ES. apply wch_ext; auto; [lia|]. intros. apply EV; lia. }
  unfold colF. rewrite ES in *. repeat split.
  - intros i Hi. rewrite ER by lia. rewrite A1 by assumption. rewrite E by lia. reflexivity.
  - rewrite ER by lia. rewrite A2. apply hv_diag_ext; [lia|]. intros. rewrite E by lia. reflexivity.
  - intros i Hi. rewrite EV by lia. rewrite A3 by lia. apply hv_vec_ext; auto. intros. rewrite E by lia. reflexivity.
  - intros i Hi. rewrite EV by lia. apply A4. lia.
Qed.

(** the column is recomputed *)
Lemma hr_cur kappa s g : CH kappa s g -> kappa < d ->
  let g' := householder_ref fp s g kappa in CH kappa s g' /\ curF s g' kappa.
Proof.
  intros [W G C] Hk g'. 
  assert (LR : length (col (fR g) kappa) = n) by (apply (wfm_col n d); [apply W|lia]).
  set (v := rcol fp (V g) s kappa (col (fR g) kappa)).
  assert (Lv : length v = n) by (now apply (rcol_length fp c)).
  assert (RG : forall i j, r g' i j = if j =? kappa then nth i v fz else r g i j).
  { intros i j. unfold g', householder_ref. setf. fold v. unfold mget. rewrite col_lupd, (wfm_length n d) by apply W.
    replace (kappa <? d) with true by (symmetry; now apply Nat.ltb_lt). rewrite andb_true_r. now destruct (j =? kappa). }
  split.
  - split; auto.
    + destruct W. unfold g', householder_ref. split; setf; auto; [now apply wfm_lupd|now rewrite lupd_length].
    + intros j Hj. apply (colF_ext s s g g' j); auto; [lia|].
      intros i Hi. rewrite RG. replace (j =? kappa) with false by (symmetry; apply Nat.eqb_neq; lia). reflexivity.
  - split; [|reflexivity]. intros i Hi. rewrite RG, Nat.eqb_refl. change (V g') with (V g). apply (rcol_nth fp c); auto.
Qed.

(** the reflector of the column *)
Lemma hv_col kappa s g g' : CH kappa s g -> kappa < d -> curF s g kappa -> householder_v fp c g kappa = Ok g' -> CH (S kappa) s g'.
Proof.
  intros [W G C] Hk [Cu M] H. pose proof (sgood_ND c s G ltac:(lia)) as ND.
  pose proof (g_gt c s G kappa Hk) as G1. pose proof (g_le c s G kappa Hk) as G2.
  destruct W as [WR WV WN].
  unfold householder_v in H. rewrite M in H.
  unfold gR, gcol in H. binv H. binv Ha. injection Ha as <-. binv H. binv Ha. injection Ha as <-. binv H. binv H.
  assert (LG : length (col (fR g) kappa) = n) by (now apply (wfm_col n d)).
  unfold fp_norm, fp_norm_sq in Ha. rewrite scalarprod_dotf in Ha by lia. cbn [bind] in Ha. injection Ha as <-.
  set (x := xc s g kappa) in *.
  rewrite (dotf_ext fp _ _ x x) in H by (auto; intros i Hi; apply (Cu i); lia).
  rewrite (Cu kappa) in H by lia. fold x in H.
  set (m := Sj s kappa) in *.
  assert (EQ : g' = set_V (lupd (fV g) kappa (map (fun i => if i =? kappa then hv_vec fp x kappa m kappa
                               else if m <=? i then fz
                               else if kappa <? i then fdiv fp (mget fz (mset (fR g) kappa kappa (hv_diag fp x kappa m)) i kappa) (hv_s2 fp x kappa m)
                               else mget fz (fV g) i kappa) (seq 0 n))) (set_R (mset (fR g) kappa kappa (hv_diag fp x kappa m)) g)).
  { unfold hv_vec, hv_diag, hv_s2, hv_s, hv_nr. rewrite Nat.eqb_refl.
    destruct (fle fp fz (x kappa)); injection H as <-; reflexivity. }
  clear H.
  assert (GR : forall i j, r g' i j = if (i =? kappa) && (j =? kappa) then hv_diag fp x kappa m else r g i j).
  { intros i j. rewrite EQ. setf. apply (mget_mset fz n d); auto; lia. }
  assert (GV : forall i j, i < n -> V g' i j = if j =? kappa then
      (if i <? kappa then V g i kappa else if m <=? i then fz else hv_vec fp x kappa m i) else V g i j).
  { intros i j Hi. unfold Vf. rewrite EQ. setf. unfold mget at 1. rewrite col_lupd, (wfm_length n d) by assumption.
    replace (kappa <? d) with true by (symmetry; now apply Nat.ltb_lt). rewrite andb_true_r.
    destruct (Nat.eqb_spec j kappa) as [->|]; [|reflexivity]. rewrite nth_map_seq by lia. cbn [Nat.add].
    rewrite (mget_mset fz n d) by (auto; lia).
    destruct (Nat.eqb_spec i kappa) as [->|Ni].
    - cbn [andb]. rewrite Nat.ltb_irrefl. replace (m <=? kappa) with false by (symmetry; apply Nat.leb_gt; lia). reflexivity.
    - destruct (Nat.leb_spec m i).
      + replace (i <? kappa) with false by (symmetry; apply Nat.ltb_ge; lia). reflexivity.
      + cbn [andb]. destruct (Nat.ltb_spec kappa i).
        * replace (i <? kappa) with false by (symmetry; apply Nat.ltb_ge; lia). rewrite (Cu i) by assumption.
          unfold hv_vec. replace (i =? kappa) with false by (symmetry; now apply Nat.eqb_neq). reflexivity.
        * replace (i <? kappa) with true by (symmetry; apply Nat.ltb_lt; lia). reflexivity. }
  split; auto.
  - rewrite EQ. split; setf; auto; [now apply wfm_mset|apply wfm_lupd; auto; now rewrite map_length, seq_length].
  - intros j Hj. destruct (Nat.eq_dec j kappa) as [->|Nj].
    + assert (E : forall i, i < m -> xc s g' kappa i = x i).
      { intros i Hi. apply wch_ext; auto; [lia|]. intros q l Hq Hl. rewrite GV by lia.
        replace (q =? kappa) with false by (symmetry; apply Nat.eqb_neq; lia). reflexivity. }
      unfold colF. fold m. repeat split.
      * intros i Hi. rewrite GR. replace (i =? kappa) with false by (symmetry; apply Nat.eqb_neq; lia). cbn [andb].
        rewrite E by lia. apply Cu. lia.
      * rewrite GR, Nat.eqb_refl. cbn [andb]. apply hv_diag_ext; auto. intros. rewrite E by lia. reflexivity.
      * intros i Hi. rewrite GV, Nat.eqb_refl by lia. replace (i <? kappa) with false by (symmetry; apply Nat.ltb_ge; lia).
        replace (m <=? i) with false by (symmetry; apply Nat.leb_gt; lia). apply hv_vec_ext; auto. intros. rewrite E by lia. reflexivity.
      * intros i Hi. rewrite GV, Nat.eqb_refl by lia. replace (i <? kappa) with false by (symmetry; apply Nat.ltb_ge; lia).
        now replace (m <=? i) with true by (symmetry; apply Nat.leb_le; lia).
    + apply (colF_ext s s g g' j); auto; [lia| | |apply C; lia].
      * intros k i Hkj Hi. rewrite GV by lia. replace (k =? kappa) with false by (symmetry; apply Nat.eqb_neq; lia). reflexivity.
      * intros i Hi. rewrite GR. replace (j =? kappa) with false by (symmetry; now apply Nat.eqb_neq). now rewrite andb_false_r.
Qed.

(** a state that differs in column kappa of B and R only *)
Lemma CH_inner kappa s g s1 g1 g2 dn : kappa < d -> CH kappa s g -> inner fp c kappa s g g s1 g1 g2 dn -> sgood s1 -> CH kappa s1 g1.
Proof.
  intros Hk [W G C] In G1. pose proof (n_f _ _ _ _ _ _ _ _ _ _ In) as E. split; auto.
  - destruct W as [W1 W2 W3]. split; [apply In|rewrite E; setf; exact W2|rewrite E; setf; exact W3].
  - intros j Hj. apply (colF_ext s s1 g g1 j); auto; [lia|now rewrite (n_S _ _ _ _ _ _ _ _ _ _ In)| | |].
    + intros i. unfold bval, mget. now rewrite (n_B _ _ _ _ _ _ _ _ _ _ In) by lia.
    + intros k i _ _. unfold Vf. rewrite E. setf. reflexivity.
    + intros i Hi. unfold mget. now rewrite (n_R _ _ _ _ _ _ _ _ _ _ In) by lia.
Qed.

Lemma cur_inner kappa s g s1 g1 g2 : curF s g kappa -> inner fp c kappa s g g s1 g1 g2 false -> curF s1 g1 kappa.
Proof.
  intros [C M] In. pose proof (n_f _ _ _ _ _ _ _ _ _ _ In) as E. pose proof (n_no _ _ _ _ _ _ _ _ _ _ In eq_refl) as [-> ER].
  assert (EV : V g1 = V g) by (unfold Vf; rewrite E; setf; reflexivity).
  split.
  - intros i Hi. rewrite ER, EV. now apply C.
  - rewrite E. setf. exact M.
Qed.

Lemma CH_kept kappa s g v : CH kappa s g -> CH kappa s (set_kept v g).
Proof. intros [[W1 W2 W3] G C]. split; auto. split; assumption. Qed.

Lemma rsim_diag {A} (Q : A -> A -> Prop) x a : rsim Q x x -> x = Ok a -> Q a a.
Proof. intros H E. now rewrite E in H. Qed.

Lemma hs_loop_ch fuel : forall s g vx pn kappa start s' g' bad, kappa < d -> start < kappa -> length vx = n ->
  CH kappa s g -> curF s g kappa ->
  hs_loop_g fp c (hr_ref fp) fuel s g vx pn kappa start = Ok (s', g', bad) -> CH kappa s' g' /\ curF s' g' kappa.
Proof.
  induction fuel as [|fuel IH]; intros s g vx pn kappa start s' g' bad Hk Hs L C Cu H; cbn [hs_loop_g] in H; [discriminate|].
  pose proof (ch_s _ _ _ C) as G. pose proof (sgood_ND c s G ltac:(lia)) as ND. pose proof (ch_w _ _ _ C) as W.
  binv H. destruct a as [[[s1 g1] vx1] sd].
  pose proof (hs_pass_sim fp c kappa s G Hk ND g g vx start Hs (gw_R _ _ W) (gw_R _ _ W)
      ltac:(intros ? ? ? ?; reflexivity) ltac:(right; right; reflexivity) L) as PS.
  pose proof (rsim_diag _ _ _ PS Ha) as (_ & _ & L1 & _ & In). cbn [fst snd] in *.
  pose proof (hs_pass_int fp c EX s g vx kappa start s1 g1 vx1 sd (bok_wfm c s (g_bok c s G)) Hs Hk Ha) as [SP _].
  pose proof (sgood_steps c s s1 SP (n_S _ _ _ _ _ _ _ _ _ _ In) G) as G1.
  pose proof (CH_inner kappa s g s1 g1 g1 sd Hk C In G1) as C1.
  destruct sd.
  - unfold hr_ref at 1 in H. cbn [bind] in H.
    destruct (hr_cur kappa s1 _ (CH_kept kappa s1 g1 (lupd (fkept g1) kappa false) C1) Hk) as [C2 Cu2].
    destruct (_ && _)%bool.
    + binv H. injection H as <- <- <-. auto.
    + eapply IH; [| | | | |exact H]; auto.
  - injection H as <- <- <-. split; [exact C1|]. eapply cur_inner; eauto.
Qed.

Lemma seysen_loop_ch fuel : (cseysen c <? 1)%Z = false -> forall s g vx tmp n0 n1 kappa s' g', kappa < d ->
  CH kappa s g -> curF s g kappa ->
  seysen_loop_g fp c (hr_ref fp) fuel s g vx tmp n0 n1 kappa = Ok (s', g') -> CH kappa s' g' /\ curF s' g' kappa.
Proof.
  intros Sy. induction fuel as [|fuel IH]; intros s g vx tmp n0 n1 kappa s' g' Hk C Cu H; cbn [seysen_loop_g] in H; [discriminate|].
  pose proof (ch_s _ _ _ C) as G. pose proof (sgood_ND c s G ltac:(lia)) as ND. pose proof (ch_w _ _ _ C) as W.
  binv H. destruct a as [[[[s1 g1] vx1] tmp1] sd].
  pose proof (seysen_pass_sim fp c kappa s G Hk ND g g vx tmp Sy (gw_R _ _ W) (gw_R _ _ W)
      ltac:(intros ? ? ? ?; reflexivity) ltac:(right; right; reflexivity)) as PS.
  pose proof (rsim_diag _ _ _ PS Ha) as (_ & _ & _ & _ & In). cbn [fst snd] in *.
  pose proof (seysen_pass_int fp c EX s g vx tmp kappa s1 g1 vx1 tmp1 sd Hk Ha) as SP. apply isteps_P in SP.
  pose proof (sgood_steps c s s1 SP (n_S _ _ _ _ _ _ _ _ _ _ In) G) as G1.
  pose proof (CH_inner kappa s g s1 g1 g1 sd Hk C In G1) as C1.
  destruct sd.
  - unfold hr_ref at 1 in H. cbn [bind] in H.
    destruct (hr_cur kappa s1 _ (CH_kept kappa s1 g1 (lupd (fkept g1) kappa false) C1) Hk) as [C2 Cu2].
    destruct (negb _).
    + binv H. binv H. injection H as <- <-. auto.
    + eapply IH; [| | |exact H]; auto.
  - injection H as <- <-. split; [exact C1|]. eapply cur_inner; eauto.
Qed.

Lemma reduce_ch fuel s g kappa s' g' bad : 1 <= kappa -> kappa < d -> CH kappa s g ->
  reduce_g fp c (hr_ref fp) fuel s g kappa = Ok (s', g', bad) -> CH kappa s' g' /\ curF s' g' kappa.
Proof.
  intros H1 Hk C H. unfold reduce_g in H. destruct (cseysen c <? 1)%Z eqn:Sy.
  - unfold hsizereduce_g in H; unfold hr_ref at 1 in H. cbn [bind] in H. destruct (hr_cur kappa s g C Hk) as [C1 Cu1].
    eapply hs_loop_ch; [| | | | |exact H]; auto; [now apply hs_start_lt|apply repeat_length].
  - unfold seysenreduce_g in H; unfold hr_ref at 1 in H. cbn [bind] in H.
    assert (C0 : CH kappa s (set_nmax (Sj s kappa) g)) by (destruct C as [[W1 W2 W3] G C]; split; auto; split; assumption).
    destruct (hr_cur kappa s _ C0 Hk) as [C1 Cu1].
    binv H. destruct a as [s2 g2]. injection H as <- <- <-. eapply seysen_loop_ch; eauto.
Qed.

Lemma enter_ch kappa s g g1 : 1 <= kappa -> kappa < d -> CH (lim kappa) s g ->
  hlll_enter_g fp c (hr_ref fp) s g kappa = Ok g1 -> CH kappa s g1.
Proof.
  intros H1 Hk C H. unfold hlll_enter_g, lim in *. destruct (Nat.eqb_spec kappa 1) as [->|N].
  - unfold hr_ref in H. cbn [bind] in H.
    assert (C0 : CH 0 s (set_kmin (map (fun z => Z.min z 0) (fkmin g)) g)) by (destruct C as [[W1 W2 W3] G C]; split; auto; split; assumption).
    destruct (hr_cur 0 s _ C0 ltac:(lia)) as [C1 Cu1]. now apply (hv_col 0 s _ g1 C1 ltac:(lia) Cu1).
  - injection H as <-. destruct C as [[W1 W2 W3] G C]; split; auto; split; assumption.
Qed.

Lemma swap_ch kappa s g : 1 <= kappa -> kappa < d -> CH kappa s g -> CH (kappa - 1) (swap_i c s kappa) (swap_f fp g kappa).
Proof.
  intros H1 Hk [[W1 W2 W3] G C].
  assert (G' : sgood (swap_i c s kappa)) by (now apply swap_sgood). split; auto.
  - unfold swap_f. split; setf; auto. now rewrite !lupd_length.
  - intros j Hj. apply (colF_ext s _ g _ j); auto; [lia| | |apply C; lia].
    + rewrite swap_S by assumption. now replace (j =? kappa - 1) with false by (symmetry; apply Nat.eqb_neq; lia).
    + intros i. unfold bval, mget, swap_i. cbn [iB]. unfold colswap. rewrite !col_lupd_neq by lia. reflexivity.
Qed.

Lemma CH_le k k' s g : k' <= k -> CH k s g -> CH k' s g.
Proof. intros H [W G C]. split; auto. intros. apply C. lia. Qed.

Lemma loop_ch (CK : ckmax c = d) fuel delta vb : forall s g kappa pk p q s' g' q', 1 <= kappa -> CH (lim kappa) s g ->
  hlll_loop_g fp c (hr_ref fp) fuel delta vb s g kappa pk p q = Ok (0%Z, s', g', q') ->
  2 <= d -> (nblov q' < cnblov_max c)%Z -> CH d s' g'.
Proof.
  assert (FIN : forall s g kappa q s' g' q', 1 <= kappa -> CH (lim kappa) s g ->
     negb ((kappa <? ckmax c) && (nblov q <? cnblov_max c)%Z) = true -> s' = s -> g' = g -> q' = inc_depth vb q ->
     2 <= d -> (nblov q' < cnblov_max c)%Z -> CH d s' g').
  { intros s g kappa q s' g' q' H1 C E -> -> -> Hd Hb. rewrite nblov_depth in Hb.
    rewrite CK in E. replace (nblov q <? cnblov_max c)%Z with true in E by (symmetry; now apply Z.ltb_lt).
    rewrite andb_true_r in E. apply negb_true_iff, Nat.ltb_ge in E.
    apply (CH_le (lim kappa)); auto. unfold lim; destruct (Nat.eqb_spec kappa 1); lia. }
  induction fuel as [|fuel IH]; intros s g kappa pk p q s' g' q' H1 C H Hd Hb; cbn [hlll_loop_g] in H;
    destruct (negb _) eqn:EN; try discriminate; try (injection H as <- <- <-; eapply FIN; eauto).
  apply negb_false_iff, andb_true_iff in EN as [EN _]. apply Nat.ltb_lt in EN. rewrite CK in EN. clear FIN.
  binv H. pose proof (enter_ch kappa s g a H1 EN C Ha) as C1. clear Ha. rename a into g1.
  binv H. destruct a as [[s2 g2] bad]. destruct (reduce_ch _ _ _ _ _ _ _ H1 EN C1 Ha) as [C2 Cu2]. clear Ha.
  destruct bad; [discriminate|]. binv H. destruct a as [lt nt]. destruct (fle fp lt nt).
  - binv H. binv H. rename a into g3. pose proof (hv_col kappa s2 g2 g3 C2 EN Cu2 Ha0) as C3.
    binv H. destruct (_ && _)%bool; [discriminate|].
    eapply IH; [| |exact H|exact Hd|exact Hb]; [lia|].
    unfold lim. replace (kappa + 1 =? 1) with false by (symmetry; apply Nat.eqb_neq; lia). replace (kappa + 1) with (S kappa) by lia.
    destruct C3 as [[W1 W2 W3] G C3]. split; auto. split; assumption.
  - binv H. eapply IH; [| |exact H|exact Hd|exact Hb]; [lia|].
    apply (CH_le (kappa - 1)); [unfold lim; destruct (Nat.eqb_spec (max (kappa - 1) 1) 1); lia|]. now apply swap_ch.
Qed.

End Loop.
