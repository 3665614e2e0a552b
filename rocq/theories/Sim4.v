(** * Lock step: Seysen reduction and hlll *)
From Coq Require Import ZArith Lia List Bool Arith.
From Verif Require Import Base Spec Mat FP Hlll HlllM HlllInt Safety Sim Sim2 Sim3.
Import ListNotations.

Section S4.
Context {F G M : Type} (fp : fpops F) (so : sops G) (mo : mops G M)
        (v : G -> F) (mv : M -> nat -> nat -> F) (mwf : M -> Prop) (c : cfg).
Notation n := (cn c).
Notation d := (cd c).
Notation fz := (fzero fp).
Notation gz := (s_zero so).
Hypothesis ND : d <= n.
Hypothesis SL : slaws fp so v.
Hypothesis ML : mlaws fp so mo v mv mwf n d.
Notation core := (core fp v mv mwf c).
Notation Rcol := (Rcol fp mv).
Notation Kcol := (Kcol fp mv).
Notation swf := (swf c).
Notation pinv := (pinv fp v mv mwf c).
Notation hinv := (hinv fp v mv mwf c).

Definition syinv s0 kappa nm D i (dn : bool) (t : ist * gst G M * list G * bool) (t' : ist * fst_ F * list F * bool) : Prop :=
  let '(s, g, vx, b) := t in let '(s', f, vx', b') := t' in
  s = s' /\ b = b' /\ vx' = map v vx /\ iS s = iS s0 /\ pinv s0 kappa nm D i g f (dn || b).

Lemma seysen_update_step_sim s0 kappa nm D restdim i dn t t' : swf s0 -> kappa < d -> restdim <= i < kappa ->
  syinv s0 kappa nm D restdim dn t t' ->
  rrel (syinv s0 kappa nm D restdim dn) (g_seysen_update_step so mo c kappa restdim i t) (seysen_update_step fp c kappa restdim i t').
Proof.
  intros HS Hk Hi. destruct t as [[[s g] vx] b], t' as [[[s' f] vx'] b']. intros (<- & <- & -> & ES & P).
  unfold g_seysen_update_step, seysen_update_step.
  pose proof P as (C & RC & _). pose proof (c_rel _ _ _ _ _ _ _ _ _ C) as RL.
  destruct (l_rnd _ _ _ SL (nth i vx gz)) as (xf & -> & Vx). cbn [bind].
  rewrite (nth_mapv v _ _ gz) by apply SL. rewrite <- Vx, <- map_lupd. rewrite (l_nz _ _ _ SL). cbn [bind].
  destruct (fnz fp (v xf)).
  - rewrite (l_gse _ _ _ SL). cbn [bind]. destruct (fgse fp (v xf)) as [lx expo].
    destruct (g_xz_sim fp so v c SL lx expo (gx g)) as (xz & -> & EB). cbn [bind]. cbn zeta.
    rewrite (r_x _ _ _ _ _ _ _ RL), EB.
    rewrite ES. rewrite (proj2 (Nat.leb_le _ _)) by (apply HS; lia). rewrite (proj2 (Nat.leb_le restdim n)) by lia. cbn [guard andb].
    eapply rrel_okl.
    { eapply (pinv_rop fp so mo v mv mwf c ND ML s0 kappa nm D i restdim); [exact P|lia|lia|lia]. }
    intros R' P'. cbn beta in P'. cbn [rrel syinv iS].
    split; [reflexivity|]. split; [reflexivity|]. split; [reflexivity|]. split; [auto|]. now rewrite orb_true_r.
  - cbn [rrel syinv]. auto.
Qed.

Lemma coefs_inner (RG : M) (RF : mat F) i (xi : G) : mwf RG -> i < d ->
  (forall k, k <= i -> mv RG k i = mget fz RF k i) -> forall m a t, a + m <= i ->
  okp (fun t' => map v t' = fold_left (fun t k => lupd t k (fsubmul fp (nth k t fz) (mget fz RF k i) (v xi))) (seq a m) (map v t))
      (mfold (fun k t => let* rki := m_get mo RG k i in
                         let* y := s_submul so (nth k t gz) rki xi in Ok (lupd t k y)) (seq a m) t).
Proof.
  intros W Hi H. induction m as [|m IH]; intros a t Hm; cbn [seq mfold fold_left].
  - exists t. split; reflexivity.
  - destruct (l_get _ _ _ _ _ _ _ _ ML RG a i) as (r & -> & V1); try lia; auto. cbn [bind].
    destruct (l_submul _ _ _ SL (nth a t gz) r xi) as (y & -> & V2). cbn [bind].
    destruct (IH (S a) (lupd t a y) ltac:(lia)) as (t' & -> & E). exists t'. split; [reflexivity|].
    rewrite E, map_lupd, V2, V1, H by lia. now rewrite (nth_mapv v _ _ gz) by apply SL.
Qed.

Lemma coefs_sim s kappa g f restdim i vx tmp : core s kappa g f -> kappa < d -> restdim <= i < kappa ->
  rrel (fun a b => b = (map v (fst a), map v (snd a)))
    (g_seysen_coefs_step so mo (gR_ g) restdim i (vx, tmp)) (seysen_coefs_step fp c (fR f) restdim i (map v vx, map v tmp)).
Proof.
  intros C Hk Hi. pose proof (c_rel _ _ _ _ _ _ _ _ _ C) as RL. unfold g_seysen_coefs_step, seysen_coefs_step.
  destruct (l_get _ _ _ _ _ _ _ _ ML (gR_ g) i i) as (rii & -> & V2); try lia; [apply RL|]. cbn [bind].
  rewrite gR_ok by lia. cbn [bind]. rewrite (c_R _ _ _ _ _ _ _ _ _ C i ltac:(lia)) in V2 by lia.
  destruct (l_div _ _ _ SL (nth i tmp gz) rii) as (xi & -> & Vx). cbn [bind].
  rewrite (nth_mapv v _ _ gz) by apply SL. rewrite <- V2, <- Vx.
  replace ((i <? n) && (i <? d)) with true by (symmetry; bool_lia). cbn [guard].
  eapply rrel_okl.
  { apply (coefs_inner (gR_ g) (fR f) i xi); [apply RL|lia| |lia].
    intros k Hk'. apply (c_R _ _ _ _ _ _ _ _ _ C i); lia. }
  intros t' E. cbn [rrel fst snd]. now rewrite E, map_lupd.
Qed.

Definition sbinv s0 kappa nm D i (t : ist * gst G M * list G * list G * bool) (t' : ist * fst_ F * list F * list F * bool) : Prop :=
  let '(s, g, vx, tmp, b) := t in let '(s', f, vx', tmp', b') := t' in
  s = s' /\ b = b' /\ vx' = map v vx /\ tmp' = map v tmp /\ iS s = iS s0 /\ pinv s0 kappa nm D i g f b.

Lemma seysen_block_sim s0 kappa nm D ix bd t t' : swf s0 -> kappa < d -> ix + bd <= kappa ->
  sbinv s0 kappa nm D (kappa - ix) t t' ->
  rrel (sbinv s0 kappa nm D (kappa - (ix + bd))) (g_seysen_block so mo c kappa ix bd t) (seysen_block fp c kappa ix bd t').
Proof.
  intros HS Hk Hb. destruct t as [[[[s g] vx] tmp] dn], t' as [[[[s' f] vx'] tmp'] dn'].
  intros (<- & <- & -> & -> & ES & P). unfold g_seysen_block, seysen_block, block_rows.
  set (rd := kappa - ix - bd). replace (kappa - (ix + bd)) with rd by (unfold rd; lia).
  assert (Erd : kappa - ix = rd + bd) by (unfold rd; lia). rewrite Erd in P.
  pose proof P as (C & RC & _). pose proof (c_rel _ _ _ _ _ _ _ _ _ C) as RL.
  eapply rrel_bind with (P := fun a b => b = map v a).
  { apply rrel_revseq with (P := fun _ a b => b = map v a); [|reflexivity].
    intros i a b Hi ->. destruct (l_get _ _ _ _ _ _ _ _ ML (gR_ g) i kappa) as (r & -> & V1); try lia; [apply RL|].
    rewrite gR_ok by lia. cbn [bind rrel]. rewrite map_lupd, V1. now rewrite RC by lia. }
  intros tmp1 ? ->.
  eapply rrel_bind with (P := fun a b => b = (map v (fst a), map v (snd a))).
  { apply rrel_revseq with (P := fun _ a b => b = (map v (fst a), map v (snd a))); [|reflexivity].
    intros i [a1 a2] b Hi ->. cbn [fst snd]. eapply coefs_sim; eauto. lia. }
  intros [vx1 tmp2] ? ->. cbn [fst snd].
  destruct (_ || _)%bool.
  - eapply rrel_bind with (P := syinv s0 kappa nm D rd dn).
    { apply rrel_revseq with (P := fun _ => syinv s0 kappa nm D rd dn).
      - intros i a b Hi Hab. apply seysen_update_step_sim; auto. lia.
      - cbn [syinv]. split; [reflexivity|]. split; [reflexivity|]. split; [reflexivity|]. split; [exact ES|].
        rewrite orb_false_r. eapply (pinv_le fp v mv mwf c ND); [|exact P]; lia. }
    intros [[[s1 g1] vx2] b1] [[[s1' f1] vx2'] b1'] (<- & <- & -> & E1 & P1). cbn [rrel sbinv]. auto 8.
  - cbn [rrel sbinv]. split; [reflexivity|]. split; [reflexivity|]. split; [reflexivity|]. split; [reflexivity|]. split; [exact ES|].
    eapply (pinv_le fp v mv mwf c ND); [|exact P]; lia.
Qed.

Lemma seysen_blocks_sim s0 kappa nm D : swf s0 -> kappa < d -> forall fuel ld ix a b,
  (forall p, In p (seysen_blocks fuel ld ix kappa) -> fst p + snd p <= kappa) ->
  sbinv s0 kappa nm D (kappa - ix) a b ->
  rrel (sbinv s0 kappa nm D 0)
    (mfold (fun b t => g_seysen_block so mo c kappa (fst b) (snd b) t) (seysen_blocks fuel ld ix kappa) a)
    (mfold (fun b st => seysen_block fp c kappa (fst b) (snd b) st) (seysen_blocks fuel ld ix kappa) b).
Proof.
  intros HS Hk.
  assert (FIN : forall i a b, sbinv s0 kappa nm D i a b -> sbinv s0 kappa nm D 0 a b).
  { intros i [[[[? ?] ?] ?] ?] [[[[? ?] ?] ?] ?] (A1 & A2 & A3 & A4 & A5 & A6). cbn [sbinv].
    split; [auto|]. split; [auto|]. split; [auto|]. split; [auto|]. split; [auto|].
    eapply (pinv_le fp v mv mwf c ND); [|exact A6]; lia. }
  induction fuel as [|fuel IH]; intros ld ix a b LE P0; cbn [seysen_blocks mfold].
  - cbn [rrel]. eauto.
  - cbn [seysen_blocks] in LE. destruct (ld <=? kappa).
    + cbn [mfold fst snd]. set (bd := if (kappa / ld) mod 2 =? 0 then 0 else ld) in *.
      eapply rrel_bind; [apply (seysen_block_sim s0 kappa nm D ix bd a b HS Hk); [|exact P0]|].
      * apply (LE (ix, bd)). now left.
      * intros a1 b1 P1. apply (IH _ (ix + bd) a1 b1); [|exact P1]. intros p I0. apply LE. now right.
    + cbn [mfold rrel]. eauto.
Qed.

Lemma seysen_pass_sim s0 kappa nm D s g f vx tmp : swf s0 -> kappa < d -> iS s = iS s0 ->
  pinv s0 kappa nm D kappa g f false ->
  rrel (sbinv s0 kappa nm D 0) (g_seysen_pass so mo c s g vx tmp kappa) (seysen_pass fp c s f (map v vx) (map v tmp) kappa).
Proof.
  intros HS Hk ES P. unfold g_seysen_pass, seysen_pass. apply seysen_blocks_sim; auto.
  - intros p I0. apply (seysen_blocks_le (kappa + 1) 0). cbn [Nat.pow]. rewrite Nat.mod_1_r. exact I0.
  - cbn [sbinv]. rewrite Nat.sub_0_r. auto 8.
Qed.

Lemma seysen_loop_sim s0 kappa D : swf s0 -> 1 <= kappa < d -> forall fuel s g f vx tmp n0 n1,
  iS s = iS s0 -> pinv s0 kappa (nth kappa (iS s0) 0) D kappa g f false -> fwf c f ->
  rrel (fun t t' => hinv s0 kappa D (t, false) (t', false))
    (g_seysen_loop so mo c fuel s g vx tmp n0 n1 kappa) (seysen_loop fp c fuel s f (map v vx) (map v tmp) n0 n1 kappa).
Proof.
  intros HS Hk. pose proof (proj1 HS kappa (proj2 Hk)) as Hnm.
  induction fuel as [|fuel IH]; intros s g f vx tmp n0 n1 ES P W; cbn [g_seysen_loop seysen_loop]; [exact I|].
  eapply rrel_bind.
  { apply rrel_safe with (Q := good5 c s0); [eapply seysen_pass_sim; eauto; lia|].
    unfold seysen_pass. apply safe_mfold; [now split|]. intros [ix bd] t I0 G0. cbn [fst snd].
    apply (seysen_block_safe fp c ND); auto; [intros j Hj; now apply HS|lia|].
    change (fst (ix, bd) + snd (ix, bd) <= kappa).
    apply (seysen_blocks_le (kappa + 1) 0). cbn [Nat.pow]. rewrite Nat.mod_1_r. exact I0. }
  intros [[[[s1 g1] vx1] tmp1] sd] [[[[s1' f1] vx1'] tmp1'] sd'] ((<- & <- & -> & -> & E1 & P1) & [_ W1]).
  destruct sd.
  - pose proof P1 as (C1 & _). pose proof (c_rel _ _ _ _ _ _ _ _ _ C1) as R1.
    destruct (l_mul _ _ _ SL (s_001 so) (nth kappa (gnB2 g1) gz)) as (t & Et & Vt).
    setg. rewrite Et. cbn [bind].
    eapply rrel_bind; [eapply (again fp so mo v mv mwf c ND SL ML); eauto; lia|].
    intros g3 f3 (P3 & W3). pose proof P3 as (C3 & RC3 & RN3 & _). pose proof (c_rel _ _ _ _ _ _ _ _ _ C3) as R3.
    rewrite (l_lt _ _ _ SL), Vt, (l_001 _ _ _ SL), <- (nB2_sim fp so v mv mwf c SL g1 f1 kappa R1), <- (nB2_sim fp so v mv mwf c SL g3 f3 kappa R3). cbn zeta.
    destruct (negb _).
    + destruct (l_get _ _ _ _ _ _ _ _ ML (gR_ g3) (kappa - 1) kappa) as (? & -> & _); try lia; [apply R3|]. cbn [bind].
      destruct (l_get _ _ _ _ _ _ _ _ ML (gR_ g3) (kappa - 1) (kappa - 1)) as (? & -> & _); try lia; [apply R3|].
      rewrite !gR_ok by lia. cbn [bind rrel Sim3.hinv]. auto.
    + apply IH; auto.
  - cbn [rrel Sim3.hinv]. split; [auto|]. split; [auto|]. split; [auto|]. split; [|exact W1].
    destruct P1 as (B1 & B2 & B3 & B4 & B5 & B6). split; [auto|]. split; [|auto].
    intros i Hi. apply B3; [auto|lia].
Qed.

Lemma repeat_map k : repeat fz k = map v (repeat gz k).
Proof. rewrite <- (l_zero _ _ _ SL). clear. induction k as [|k IH]; cbn; [reflexivity|]. now rewrite IH. Qed.

Lemma reduce_sim fuel s kappa D g f : swf s -> 1 <= kappa < d -> core s kappa g f -> fwf c f -> gdesc g = D ->
  (1 <= nth kappa D 0 < kappa -> Kcol kappa (nth kappa (iS s) 0) g f) ->
  rrel (hinv s kappa D) (g_reduce so mo c fuel s g kappa) (reduce fp c fuel s f kappa).
Proof.
  intros HS Hk C W ED HK. unfold g_reduce, reduce. destruct (_ <? _)%Z.
  - now apply (hsizereduce_sim fp so mo v mv mwf c ND SL ML).
  - pose proof (proj1 HS kappa (proj2 Hk)) as Hnm. unfold g_seysenreduce, seysenreduce.
    eapply rrel_bind.
    { apply (householder_r_sim fp so mo v mv mwf c ND SL ML); auto; try lia.
      - apply (core_nmax fp v mv mwf c); auto. lia.
      - apply fwf_nmax; auto. lia.
      - intros _. setg. rewrite ED. exact HK. }
    intros g1 f1 ((B1 & B2 & B3 & B4 & B5) & B6). setg.
    rewrite repeat_map.
    eapply rrel_bind; [apply (seysen_loop_sim s kappa D HS Hk); auto|].
    + split; [auto|]. split; [intros i Hi; apply B3; lia|]. split; [auto|]. split; [apply B2; lia|]. split; [congruence|auto].
    + intros [s2 g2] [s2' f2] H. exact H.
Qed.

(** ** hlll *)
Lemma lovasz_sim s kappa nm D i dl g f sv : swf s -> 1 <= kappa < d -> nm = nth kappa (iS s) 0 -> pinv s kappa nm D i g f false ->
  rrel (fun a b => fst b = v (fst (fst a)) /\ snd b = v (snd (fst a)))
    (g_lovasz so mo dl s g kappa sv) (lovasz fp c (v dl) s f kappa).
Proof.
  intros HS Hk En (C & _ & RN & _). specialize (RN eq_refl). pose proof (proj1 HS kappa (proj2 Hk)) as Hnm. rewrite <- En in Hnm.
  pose proof (c_rel _ _ _ _ _ _ _ _ _ C) as RL.
  destruct (fwd_dim c f (r_wf _ _ _ _ _ _ _ RL)) as (WR & _).
  unfold g_lovasz, lovasz.
  destruct (l_get _ _ _ _ _ _ _ _ ML (gR_ g) (kappa - 1) (kappa - 1)) as (rp & -> & V1); try lia; [apply RL|]. cbn [bind].
  rewrite gR_ok by lia. cbn [bind]. rewrite (c_R _ _ _ _ _ _ _ _ _ C (kappa - 1) ltac:(lia)) in V1 by lia.
  destruct (l_mul _ _ _ SL rp rp) as (l0 & -> & V2). cbn [bind].
  destruct (l_mul _ _ _ SL dl l0) as (lt & -> & V3). cbn [bind].
  rewrite gcol_ok by lia. cbn [bind]. rewrite <- En.
  replace (Z.of_nat nm - Z.of_nat kappa)%Z with (Z.of_nat (nm - kappa)) by lia.
  destruct (l_norm _ _ _ _ _ _ _ _ ML (gR_ g) kappa kappa (nm - kappa) sv) as (s0 & -> & V4); try lia; [apply RL|]. cbn [bind].
  assert (EF : fp_norm fp (skipn kappa (col (fR f) kappa)) (nm - kappa) = Ok (v s0)).
  { unfold fp_norm, fp_norm_sq. rewrite V4.
    erewrite scalarprod_spf with (z := fz); [cbn [bind]; reflexivity| | | |]; try lia;
      try (rewrite skipn_length, (wfm_col n d) by (assumption || lia); lia).
    intros k Hk'. rewrite (nth_col fp), RN by lia. auto. }
  rewrite EF. cbn [bind]. rewrite gR_ok by lia. cbn [bind].
  destruct (l_mul _ _ _ SL s0 s0) as (s1 & -> & V5). cbn [bind].
  destruct (l_get _ _ _ _ _ _ _ _ ML (gR_ g) (kappa - 1) kappa) as (r2 & -> & V6); try lia; [apply RL|]. cbn [bind].
  rewrite RN in V6 by lia.
  destruct (l_mul _ _ _ SL r2 r2) as (sn & -> & V7). cbn [bind].
  destruct (l_add _ _ _ SL s1 sn) as (nt & -> & V8). cbn [bind rrel fst snd].
  rewrite V8, V7, V6, V5, V3, V2, V1. auto.
Qed.

Definition core0 (s : ist) (g : gst G M) (f : fst_ F) : Prop :=
  core s 0 (put_nmax 0 g) (set_nmax 0 f) /\ fwf c (set_nmax 0 f).
Lemma core_core0 s kappa g f : core s kappa g f -> fwf c f -> core0 s g f.
Proof.
  intros C W. split.
  - apply (core_nmax fp v mv mwf c) with (m := 0) in C; [|lia]. destruct C as [C1 C2 C3 C4].
    split; auto; intros k Hk; lia.
  - apply fwf_nmax; auto. lia.
Qed.

(** what holds on entry of an iteration *)
Definition linv (s : ist) (kappa : nat) (g : gst G M) (f : fst_ F) : Prop :=
  swf s /\ core0 s g f /\ (kappa <> 1 -> core s kappa g f /\ fwf c f) /\
  (forall j, j <> kappa -> nth j (gdesc g) 0 = 0) /\
  (kappa <> 1 -> Kcol kappa (nth kappa (iS s) 0) g f \/ nth kappa (gdesc g) 0 = 0).

Lemma enter_sim s kappa g f : linv s kappa g f -> 1 <= kappa < d ->
  rrel (fun g' f' => core s kappa g' f' /\ fwf c f' /\ gdesc g' = gdesc g /\
                     (1 <= nth kappa (gdesc g) 0 < kappa -> Kcol kappa (nth kappa (iS s) 0) g' f'))
    (g_hlll_enter so mo c s g kappa) (hlll_enter fp c s f kappa).
Proof.
  intros (HS & C0 & C1 & HD & HK) Hk. unfold g_hlll_enter, hlll_enter. destruct (Nat.eqb_spec kappa 1) as [->|N].
  - destruct C0 as [C0 W0].
    pose (f1 := set_kmin (map (fun z => Z.min z 0) (fkmin (set_nmax 0 f))) (set_nmax 0 f)).
    pose (g1 := put_kmin (map (fun z => Z.min z 0) (gkmin (put_nmax 0 g))) (put_nmax 0 g)).
    assert (W1 : fwf c f1).
    { destruct W0. split; unfold f1; setg; auto; [now rewrite map_length|].
      intros j Hj K. specialize (w_km j Hj K).
      rewrite nth_indep with (d' := (fun z => Z.min z 0) 0%Z) by (rewrite map_length; lia).
      rewrite (map_nth (fun z => Z.min z 0)). lia. }
    assert (C01 : core s 0 g1 f1).
    { destruct C0 as [D1 D2 D3 D4]. split; auto; try (intros k Hk'; lia).
      pose proof (r_kmin _ _ _ _ _ _ _ D1) as EK. destruct D1. unfold g1, f1. split; setg; auto. now rewrite EK. }
    change (g_householder_r so mo c s (put_kmin (map (fun z : Z => Z.min z 0) (gkmin g)) g) 0)
      with (g_householder_r so mo c s g1 0).
    change (householder_r fp c s (set_kmin (map (fun z : Z => Z.min z 0) (fkmin f)) f) 0)
      with (householder_r fp c s f1 0).
    eapply rrel_bind; [apply (householder_r_sim fp so mo v mv mwf c ND SL ML); auto; lia|].
    intros g2 f2 ((B1 & B2 & B3 & B4 & B5) & B6).
    pose proof (proj1 HS 0 ltac:(lia)) as Hn0.
    eapply rrel_weaken; [|eapply (householder_v_sim fp so mo v mv mwf c ND SL ML); eauto; lia].
    intros g3 f3 ((E1 & E2 & E3 & E4 & E5) & E6). split; [exact E1|]. split; [exact E6|]. split; [rewrite E4, B4; reflexivity|]. lia.
  - destruct (C1 N) as [C W]. cbn [rrel]. split; [|split; [|split]].
    + destruct C as [D1 D2 D3 D4]. split; auto.
      pose proof (r_kmin _ _ _ _ _ _ _ D1) as EK. destruct D1. split; setg; auto. now rewrite EK.
    + pose proof (hlll_enter_safe fp c ND s f kappa (proj2 C0) (fun _ => W) (swf_sok c s HS) Hk) as S.
      unfold hlll_enter in S. rewrite (proj2 (Nat.eqb_neq _ _) N) in S. exact S.
    + reflexivity.
    + intros H. destruct (HK N) as [K|K]; [exact K|lia].
Qed.

Lemma swap_sim s kappa D g f : swf s -> 1 <= kappa < d -> pinv s kappa (nth kappa (iS s) 0) D kappa g f false -> fwf c f ->
  (forall j, j <> kappa -> nth j D 0 = 0) ->
  exists g', g_swap_f so mo g kappa = Ok g' /\ linv (swap_i c s kappa) (max (kappa - 1) 1) g' (swap_f fp f kappa).
Proof.
  intros HS Hk (C & _ & _ & HK & HDs & _) W HD. pose proof (c_rel _ _ _ _ _ _ _ _ _ C) as RL.
  unfold g_swap_f. setg.
  destruct (l_colswap _ _ _ _ _ _ _ _ ML (gBfp g) (kappa - 1) kappa) as (b & -> & B1 & B2); try lia; [apply RL|].
  cbn [bind]. eexists. split; [reflexivity|].
  pose proof (proj1 HS kappa (proj2 Hk)) as Hnm. pose proof (proj1 HS (kappa - 1) ltac:(lia)) as Hnm1.
  destruct (fwd_dim c f (r_wf _ _ _ _ _ _ _ RL)) as (WR & WRk & WV & WB & WVR & WnB & WtR).
  assert (LS : kappa - 1 < length (iS s)).
  { destruct (Nat.lt_ge_cases (kappa - 1) (length (iS s))) as [|L]; [assumption|]. rewrite (nth_overflow (iS s) 0 L) in Hnm1. lia. }
  assert (S1 : nth (kappa - 1) (iS (swap_i c s kappa)) 0 = nth kappa (iS s) 0) by (cbn [swap_i iS]; now apply nth_lupd_eq).
  assert (S2 : forall j, j <> kappa - 1 -> nth j (iS (swap_i c s kappa)) 0 = nth j (iS s) 0)
    by (intros; cbn [swap_i iS]; now apply nth_lupd_neq).
  assert (HS' : swf (swap_i c s kappa)).
  { destruct HS as [H1 H2]. split.
    - intros j Hj. destruct (Nat.eq_dec j (kappa - 1)) as [->|N]; [rewrite S1; lia|]. rewrite S2 by assumption. now apply H1.
    - intros i j Hij Hj. destruct (Nat.eq_dec i (kappa - 1)) as [->|N1], (Nat.eq_dec j (kappa - 1)) as [->|N2]; rewrite ?S1, ?S2 by assumption; auto.
      + apply H2; lia.
      + apply H2; lia. }
  assert (W' : fwf c (swap_f fp f kappa)) by (apply swap_f_fwf; auto).
  set (g' := put_nB2 _ _).
  assert (C' : core (swap_i c s kappa) (kappa - 1) g' (swap_f fp f kappa)).
  { destruct C as [C1 C2 C3 C4]. split.
    - pose proof (r_B _ _ _ _ _ _ _ C1) as RB. destruct C1. unfold g', swap_f. split; setg; auto.
      + intros i j Hi Hj. rewrite B2 by assumption. unfold mget. rewrite (col_colswap n d) by (auto; lia).
        fold (mget fz (fBfp f) i (if j =? kappa - 1 then kappa else if j =? kappa then kappa - 1 else j)).
        apply RB; [assumption|]. destruct (j =? kappa - 1), (j =? kappa); lia.
      + rewrite colswap_mapmap. now rewrite r_VR.
      + rewrite !map_lupd, r_nB2, !(nth_mapv v _ _ gz) by apply SL. reflexivity.
      + now rewrite r_desc.
      + apply (fwf_fwd c ND). exact W'.
    - intros i j Hj Hi. unfold swap_f. setg. unfold mget. rewrite (col_colswap n d) by (auto; lia).
      destruct (Nat.eqb_spec j (kappa - 1)) as [->|N1].
      + apply (C2 i kappa); [lia|]. now rewrite S1 in Hi.
      + rewrite S2 in Hi by assumption. destruct (Nat.eqb_spec j kappa) as [->|N2].
        * apply (C2 i (kappa - 1)); [lia|]. pose proof (proj2 HS (kappa - 1) kappa ltac:(lia) (proj2 Hk)). lia.
        * now apply C2.
    - intros k Hk'. apply C3. lia.
    - intros k Hk'. apply C4. lia. }
  assert (K' : Kcol (kappa - 1) (nth (kappa - 1) (iS (swap_i c s kappa)) 0) g' (swap_f fp f kappa)).
  { rewrite S1. intros k i Hk' Hi. apply HK; lia. }
  assert (DS : forall j, j <> max (kappa - 1) 1 -> nth j (gdesc g') 0 = 0).
  { intros j Hj. unfold g'. setg. rewrite HDs.
    rewrite nth_lupd. destruct (_ && _)%bool eqn:E1; [reflexivity|].
    destruct (Nat.eqb_spec kappa 1) as [E|E].
    - rewrite nth_lupd. destruct ((j =? 0) && _)%bool; [reflexivity|]. apply HD. lia.
    - rewrite nth_lupd_neq by lia. destruct (Nat.eq_dec j kappa) as [->|N]; [|now apply HD].
      rewrite Nat.eqb_refl in E1. cbn [andb] in E1. apply Nat.ltb_ge in E1. rewrite lupd_length in E1. now apply nth_overflow. }
  split; [exact HS'|]. split; [eapply core_core0; eauto|]. split; [|split; [exact DS|]].
  - intros N. replace (max (kappa - 1) 1) with (kappa - 1) by lia. auto.
  - intros N. replace (max (kappa - 1) 1) with (kappa - 1) by lia. auto.
Qed.

Definition finv (t : g_hres (F := G) (M := M)) (t' : hres (F := F)) : Prop :=
  let '(r, s, g, q) := t in let '(r', s', f, q') := t' in
  r = r' /\ s = s' /\ q = q' /\ swf s /\ core0 s g f.

Theorem hlll_loop_sim fuel dl vb : ckmax c <= d -> forall s g f kappa pk pR sv q,
  linv s kappa g f -> 1 <= kappa ->
  rrel finv (g_hlll_loop so mo c fuel dl vb s g kappa pk pR sv q) (hlll_loop fp c fuel (v dl) vb s f kappa pk (map v pR) q).
Proof.
  intros Hmax. induction fuel as [|fuel IH]; intros s g f kappa pk pR sv q LI Hk; cbn [g_hlll_loop hlll_loop].
  - destruct (negb _); [|exact I]. cbn [rrel finv]. destruct LI as (A1 & A2 & _). auto 8.
  - destruct (negb _) eqn:E.
    { cbn [rrel finv]. destruct LI as (A1 & A2 & _). auto 8. }
    apply negb_false_iff, andb_true_iff in E. rewrite Nat.ltb_lt, Z.ltb_lt in E. destruct E as [E1 E2].
    assert (Hkd : 1 <= kappa < d) by lia.
    pose proof LI as (HS & _ & _ & HD & _). pose proof (proj1 HS kappa (proj2 Hkd)) as Hnm.
    eapply rrel_bind; [apply enter_sim; eauto|]. intros g1 f1 (C1 & W1 & D1 & K1).
    eapply rrel_bind; [apply (reduce_sim (S fuel) s kappa (gdesc g)); auto|].
    intros [[s2 g2] b2] [[s2' f2] b2'] (<- & <- & ES & P2 & W2).
    assert (HS2 : swf s2) by (unfold Sim2.swf; now rewrite ES).
    assert (P2' : pinv s2 kappa (nth kappa (iS s2) 0) (gdesc g) kappa g2 f2 false).
    { rewrite ES. destruct P2 as (A1 & A2). split; [|exact A2]. eapply core_iS; [|exact A1]. auto. }
    clear P2. destruct b2.
    { cbn [rrel finv]. destruct P2' as (A1 & _). split; [auto|]. split; [auto|]. split; [auto|]. split; [auto|]. eapply core_core0; eauto. }
    eapply rrel_bind; [apply (lovasz_sim s2 kappa _ _ _ dl g2 f2 sv HS2 Hkd eq_refl P2')|].
    intros [[lt nt] sv'] [lt' nt'] [EL EN]. cbn [fst snd] in EL, EN. subst lt' nt'.
    rewrite (l_le _ _ _ SL). cbn zeta. destruct (fle fp (v lt) (v nt)).
    + rewrite (proj2 (Nat.ltb_lt kappa d)) by lia. cbn [guard].
      pose proof P2' as (A1 & _ & A3 & A4 & A5 & A6).
      eapply rrel_bind.
      { eapply (householder_v_sim fp so mo v mv mwf c ND SL ML s2); eauto; [lia|]. rewrite ES. lia. }
      intros g3 f3 ((B1 & B2 & B3 & B4 & B5) & B6).
      pose proof (c_rel _ _ _ _ _ _ _ _ _ B1) as R3.
      destruct (l_get _ _ _ _ _ _ _ _ ML (gR_ g3) kappa kappa) as (rkk & -> & Vr); try lia; [apply R3|]. cbn [bind].
      rewrite gR_ok by lia. cbn [bind]. rewrite B2 in Vr by (rewrite ES; lia).
      rewrite (l_lt _ _ _ SL), (l_abs _ _ _ SL), Vr, (nth_mapv v _ _ gz) by apply SL.
      destruct (_ && _)%bool.
      { cbn [rrel finv]. split; [auto|]. split; [auto|]. split; [auto|]. split; [auto|]. eapply core_core0; eauto. }
      replace (lupd (map v pR) kappa (fabs fp (mget fz (fR f3) kappa kappa))) with (map v (lupd pR kappa (s_abs so rkk)))
        by (rewrite map_lupd, (l_abs _ _ _ SL), Vr; reflexivity).
      set (gd := if kappa =? 1 then _ else _). set (fd := if kappa =? 1 then _ else _).
      assert (EDS : fd = gd) by (unfold fd, gd; now rewrite (r_desc _ _ _ _ _ _ _ R3)).
      assert (LD : length fd = d).
      { unfold fd. destruct (kappa =? 1); rewrite ?lupd_length; apply B6. }
      assert (C4 : core s2 (kappa + 1) (put_desc gd g3) (set_desc fd f3)).
      { destruct B1 as [Q1 Q2 Q3 Q4]. split; auto. destruct Q1. split; setg; auto. exact (fwf_desc c _ fd r_wf LD). }
      assert (W4 : fwf c (set_desc fd f3)) by (apply fwf_desc; auto).
      assert (DZ : forall j, nth j gd 0 = 0).
      { intros j. unfold gd. rewrite B4, A5. 
        assert (Z1 : nth j (lupd (gdesc g) kappa 0) 0 = 0).
        { rewrite nth_lupd. destruct (_ && _)%bool eqn:E3; [reflexivity|].
          destruct (Nat.eq_dec j kappa) as [->|N]; [|now apply HD].
          rewrite Nat.eqb_refl in E3. apply Nat.ltb_ge in E3. now apply nth_overflow. }
        destruct (kappa =? 1); [|exact Z1]. rewrite nth_lupd. destruct (_ && _)%bool; [reflexivity|exact Z1]. }
      apply IH; [|lia]. split; [exact HS2|]. split; [eapply core_core0; eauto|]. split; [auto|]. split.
      * intros j _. setg. apply DZ.
      * intros _. right. setg. apply DZ.
    + rewrite (proj2 (Nat.ltb_lt kappa d)) by lia. cbn [guard].
      destruct (swap_sim s2 kappa (gdesc g) g2 f2 HS2 Hkd P2' W2 HD) as (g' & -> & LI'). cbn [bind].
      apply IH; [exact LI'|lia].
Qed.

Lemma reset_core0 s g f : core0 s g f -> core0 s (g_hlll_reset c g) (hlll_reset c f).
Proof.
  intros [[C1 C2 C3 C4] W]. pose proof (fwf_reset c _ W) as W'. split; [|exact W'].
  split; auto; try (intros k Hk; lia).
  pose proof (r_kept _ _ _ _ _ _ _ C1) as E1. pose proof (r_desc _ _ _ _ _ _ _ C1) as E2.
  destruct C1. unfold g_hlll_reset, hlll_reset. split; setg; auto; try now rewrite ?E1, ?E2.
  exact (fwf_fwd c ND _ W').
Qed.
End S4.

