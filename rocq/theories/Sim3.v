(** * Lock step: size reduction and Seysen reduction *)
From Coq Require Import ZArith Lia List Bool Arith.
From Verif Require Import Base Spec Mat FP Hlll HlllM HlllInt Safety Sim Sim2.
Import ListNotations.

Lemma down_S h : down (S h) 0 = S h :: down h 0.
Proof. unfold down. rewrite !Nat.sub_0_r, (seq_S (S h)), rev_app_distr. reflexivity. Qed.
Lemma rrel_down {A B} (P : nat -> A -> B -> Prop) f g : forall h a b,
  (forall i a b, i <= h -> P (i + 1) a b -> rrel (P i) (f i a) (g i b)) -> P (h + 1) a b ->
  rrel (P 0) (mfold f (down h 0) a) (mfold g (down h 0) b).
Proof.
  induction h as [|h IH]; intros a b H H0.
  - cbn. eapply rrel_bind; [apply H; [lia|exact H0]|]. auto.
  - rewrite down_S. cbn [mfold]. eapply rrel_bind; [apply H; [lia|exact H0]|].
    intros a1 b1 H1. apply IH; [intros; apply H; auto; lia|]. now rewrite Nat.add_1_r.
Qed.
(** the same for the rows hi-1, ..., lo *)
Lemma rrel_revseq {A B} (P : nat -> A -> B -> Prop) f g lo : forall m a b,
  (forall i a b, lo <= i < lo + m -> P (i + 1) a b -> rrel (P i) (f i a) (g i b)) -> P (lo + m) a b ->
  rrel (P lo) (mfold f (rev (seq lo m)) a) (mfold g (rev (seq lo m)) b).
Proof.
  induction m as [|m IH]; intros a b H H0.
  - cbn. now rewrite Nat.add_0_r in H0.
  - rewrite seq_S, rev_app_distr. cbn [rev app mfold]. eapply rrel_bind.
    + apply H; [lia|]. now replace (lo + m + 1) with (lo + S m) by lia.
    + intros a1 b1 H1. apply IH; auto. intros; apply H; auto; lia.
Qed.

Section S3.
Context {F G M : Type} (fp : fpops F) (so : sops G) (mo : mops G M)
        (v : G -> F) (mv : M -> nat -> nat -> F) (mwf : M -> Prop) (c : cfg).
Notation n := (cn c).
Notation d := (cd c).
Notation fz := (fzero fp).
Notation gz := (s_zero so).
Hypothesis ND : d <= n.
Hypothesis SL : slaws fp so v.
Hypothesis ML : mlaws fp so mo v mv mwf n d.
Notation core := (core fp v mv mwf c).
Notation Rcol := (Rcol fp mv).
Notation Kcol := (Kcol fp mv).
Notation swf := (swf c).

Lemma core_x s kappa g f x : core s kappa g f -> core s kappa (put_x x g) (set_x (v x) f).
Proof.
  intros [C1 C2 C3 C4]. split; auto. destruct C1. split; setg; auto. exact (fwf_x c _ (v x) r_wf).
Qed.

Lemma bop_z lx expo z z' : needs_z c lx expo = false -> bop c lx expo z = bop c lx expo z'.
Proof.
  clear. unfold needs_z, bop. destruct (clong c), (expo =? 0)%Z, (lx =? 1)%Z, (lx =? -1)%Z; cbn; intros; congruence.
Qed.
Lemma g_xz_sim lx expo x : okp (fun z => bop c lx expo z = bop c lx expo (fset_f fp (v x))) (g_xz so c lx expo x).
Proof.
  unfold g_xz. destruct (needs_z c lx expo) eqn:E.
  - rewrite (l_setf _ _ _ SL). eexists. split; reflexivity.
  - eexists. split; [reflexivity|]. now apply bop_z.
Qed.

Lemma g_rop_sim lx expo x j k l RG RF : mwf RG -> wfm n d RF -> j < d -> k < d -> j <> k -> l <= n ->
  (forall i, i < l -> mv RG i j = mget fz RF i j) -> (forall i, i < l -> mv RG i k = mget fz RF i k) ->
  okp (fun R' => mwf R' /\ keeps mv n d j RG R' /\
         forall i, i < l -> mv R' i j = mget fz (colop fz (rop fp lx expo (v x)) 0 l RF j k) i j)
      (g_rop mo lx expo x j k l RG).
Proof.
  intros W WF Hj Hk N Hl H1 H2. unfold g_rop.
  assert (E : forall i, i < l -> mget fz (colop fz (rop fp lx expo (v x)) 0 l RF j k) i j = rop fp lx expo (v x) (mv RG i j) (mv RG i k)).
  { intros i Hi. rewrite (mget_colop fz _ n d) by (auto; lia). rewrite Nat.eqb_refl. cbn [Nat.leb andb Nat.add].
    rewrite (proj2 (Nat.ltb_lt _ _) Hi). now rewrite H1, H2. }
  assert (FIN : forall m (h : F -> F -> F), rop fp lx expo (v x) = h ->
     okp (fun A' => mwf A' /\ keeps mv n d j RG A' /\ forall i, i < l -> mv A' i j = h (mv RG i j) (mv RG i k)) m ->
     okp (fun R' => mwf R' /\ keeps mv n d j RG R' /\
         forall i, i < l -> mv R' i j = mget fz (colop fz (rop fp lx expo (v x)) 0 l RF j k) i j) m).
  { intros m h <- (R' & -> & A1 & A2 & A3). exists R'. split; [reflexivity|]. split; auto. split; auto.
    intros i Hi. rewrite E by assumption. auto. }
  clear E. unfold rop in *.
  destruct (expo =? 0)%Z; [destruct (lx =? 1)%Z; [|destruct (lx =? -1)%Z]|].
  - eapply FIN; [reflexivity|]. now apply (l_subcol _ _ _ _ _ _ _ _ ML).
  - eapply FIN; [reflexivity|]. now apply (l_addcol _ _ _ _ _ _ _ _ ML).
  - eapply FIN; [reflexivity|]. now apply (l_submulcol _ _ _ _ _ _ _ _ ML).
  - eapply FIN; [reflexivity|]. now apply (l_submulcol _ _ _ _ _ _ _ _ ML).
Qed.

(** during a pass: the first [i] rows of column kappa of R agree; all [nm] rows as long
    as nothing has been changed *)
Definition pinv (s0 : ist) (kappa nm : nat) (D : list nat) (i : nat) (g : gst G M) (f : fst_ F) (done : bool) : Prop :=
  core s0 kappa g f /\ Rcol i kappa g f /\ (done = false -> Rcol nm kappa g f) /\ Kcol kappa nm g f /\
  gdesc g = D /\ gnmax g = nm.

Lemma pinv_x s0 kappa nm D i g f dn x : pinv s0 kappa nm D i g f dn -> pinv s0 kappa nm D i (put_x x g) (set_x (v x) f) dn.
Proof. intros (A1 & A2 & A3 & A4 & A5 & A6). split; [now apply core_x|]. auto. Qed.
Lemma pinv_le s0 kappa nm D i i' g f dn : i' <= i -> pinv s0 kappa nm D i g f dn -> pinv s0 kappa nm D i' g f dn.
Proof.
  intros Hi (A1 & A2 & A3 & A4 & A5 & A6). split; auto. split; [|auto]. intros k Hk. apply A2. lia.
Qed.

(** the update of R in a pass *)
Lemma pinv_rop s0 kappa nm D i l g f dn lx expo x : pinv s0 kappa nm D l g f dn -> kappa < d -> i < kappa -> l <= i + 1 -> 
  okp (fun R' => pinv s0 kappa nm D l (put_R R' g) (set_R (colop fz (rop fp lx expo (v x)) 0 l (fR f) kappa i) f) true)
      (g_rop mo lx expo x kappa i l (gR_ g)).
Proof.
  intros (A1 & A2 & A3 & A4 & A5 & A6) Hk Hi Hl. pose proof (c_rel _ _ _ _ _ _ _ _ _ A1) as RL.
  pose proof (proj1 (fwd_dim c f (r_wf _ _ _ _ _ _ _ RL))) as WR.
  destruct (g_rop_sim lx expo x kappa i l (gR_ g) (fR f)) as (R' & E & K1 & K2 & K3); auto; try lia; [apply RL| |].
  { intros k Hk'. apply (c_R _ _ _ _ _ _ _ _ _ A1 i Hi). lia. }
  exists R'. split; [exact E|]. split; [|split; [|split; [|auto]]].
  - apply (core_setR fp v mv mwf c ND); auto; [now apply wfm_colop|].
    intros i' j Hi' Hj _. split; [apply K2; lia|]. rewrite (mget_colop fz _ n d) by (auto; lia).
    destruct (Nat.eqb_spec j kappa); [lia|reflexivity].
  - intros k Hk'. setg. now apply K3.
  - discriminate.
Qed.

Definition suinv s0 kappa nm D i (t : ist * gst G M * bool) (t' : ist * fst_ F * bool) : Prop :=
  let '(s, g, b) := t in let '(s', f, b') := t' in
  s = s' /\ b = b' /\ iS s = iS s0 /\ pinv s0 kappa nm D i g f b.

Lemma size_update_step_sim s0 kappa nm D i t t' : swf s0 -> kappa < d -> i < kappa -> suinv s0 kappa nm D (i + 1) t t' ->
  rrel (suinv s0 kappa nm D i) (g_size_update_step so mo c kappa i t) (size_update_step fp c kappa i t').
Proof.
  intros HS Hk Hi. destruct t as [[s g] b], t' as [[s' f] b']. intros (<- & <- & ES & P).
  unfold g_size_update_step, size_update_step.
  pose proof P as (C & RC & _). pose proof (c_rel _ _ _ _ _ _ _ _ _ C) as RL.
  destruct (l_get _ _ _ _ _ _ _ _ ML (gR_ g) i kappa) as (rik & -> & V1); try lia; [apply RL|]. cbn [bind].
  destruct (l_get _ _ _ _ _ _ _ _ ML (gR_ g) i i) as (rii & -> & V2); try lia; [apply RL|]. cbn [bind].
  rewrite !gR_ok by lia. cbn [bind].
  rewrite RC in V1 by lia. rewrite (c_R _ _ _ _ _ _ _ _ _ C i Hi) in V2 by lia.
  destruct (l_div _ _ _ SL rik rii) as (x0 & -> & Vx0). cbn [bind].
  destruct (l_rnd _ _ _ SL x0) as (x & -> & Vx). cbn [bind].
  rewrite Vx0, V1, V2 in Vx. rewrite <- Vx. rewrite (l_nz _ _ _ SL). cbn [bind].
  apply (pinv_x _ _ _ _ _ _ _ _ x) in P.
  destruct (fnz fp (v x)).
  - rewrite (l_gse _ _ _ SL). cbn [bind]. destruct (fgse fp (v x)) as [lx expo].
    destruct (g_xz_sim lx expo x) as (xz & -> & EB). cbn [bind]. cbn zeta. rewrite EB.
    rewrite ES. rewrite (proj2 (Nat.leb_le _ _)) by (apply HS; lia). cbn [guard].
    eapply rrel_okl; [eapply pinv_rop; eauto; lia|]. intros R' P'. cbn beta in P'. cbn [rrel suinv iS].
    split; [reflexivity|]. split; [reflexivity|]. split; [auto|]. eapply pinv_le; [|exact P']. lia.
  - cbn [rrel suinv]. split; [reflexivity|]. split; [reflexivity|]. split; [auto|]. eapply pinv_le; [|exact P]. lia.
Qed.

Lemma size_update_sim s0 kappa nm D from s g f : swf s0 -> kappa < d -> from < kappa -> iS s = iS s0 ->
  pinv s0 kappa nm D (from + 1) g f false ->
  rrel (suinv s0 kappa nm D 0) (g_size_update so mo c s g kappa from) (size_update fp c s f kappa from).
Proof.
  intros HS Hk Hf ES P. unfold g_size_update, size_update.
  apply rrel_down with (P := suinv s0 kappa nm D).
  - intros i a b Hi H. apply size_update_step_sim; auto. lia.
  - split; auto.
Qed.

Definition suinvR s0 kappa nm D i (t : gst G M * list G * bool) (t' : fst_ F * list F * bool) : Prop :=
  let '(g, vx, b) := t in let '(f, vx', b') := t' in
  vx' = map v vx /\ b = b' /\ pinv s0 kappa nm D i g f b.

Lemma size_update_R_sim s0 kappa nm D from g f vx : kappa < d -> from < kappa ->
  pinv s0 kappa nm D (from + 1) g f false ->
  rrel (suinvR s0 kappa nm D 0) (g_size_update_R so mo g vx kappa from) (size_update_R fp c f (map v vx) kappa from).
Proof.
  intros Hk Hf P. unfold g_size_update_R, size_update_R.
  apply rrel_down with (P := suinvR s0 kappa nm D); [|split; auto].
  clear P g f vx. intros i [[g vx] b] [[f vx'] b'] Hi (-> & <- & P).
  unfold g_size_update_R_step, size_update_R_step.
  pose proof P as (C & RC & _). pose proof (c_rel _ _ _ _ _ _ _ _ _ C) as RL.
  destruct (l_get _ _ _ _ _ _ _ _ ML (gR_ g) i kappa) as (rik & -> & V1); try lia; [apply RL|]. cbn [bind].
  destruct (l_get _ _ _ _ _ _ _ _ ML (gR_ g) i i) as (rii & -> & V2); try lia; [apply RL|]. cbn [bind].
  rewrite !gR_ok by lia. cbn [bind].
  rewrite RC in V1 by lia. rewrite (c_R _ _ _ _ _ _ _ _ _ C i ltac:(lia)) in V2 by lia.
  destruct (l_div _ _ _ SL rik rii) as (x0 & -> & Vx0). cbn [bind].
  destruct (l_rnd _ _ _ SL x0) as (x & -> & Vx). cbn [bind].
  rewrite Vx0, V1, V2 in Vx. rewrite <- Vx. rewrite (l_nz _ _ _ SL). cbn [bind].
  apply (pinv_x _ _ _ _ _ _ _ _ x) in P. rewrite <- map_lupd.
  destruct (fnz fp (v x)).
  - rewrite (l_gse _ _ _ SL). cbn [bind]. destruct (fgse fp (v x)) as [lx expo].
    eapply rrel_okl; [eapply pinv_rop; eauto; lia|]. intros R' P'. cbn beta in P'. cbn [rrel suinvR].
    split; [reflexivity|]. split; [reflexivity|]. eapply pinv_le; [|exact P']. lia.
  - cbn [rrel suinvR]. split; [reflexivity|]. split; [reflexivity|]. eapply pinv_le; [|exact P]. lia.
Qed.

(** psize_update_B through the triples *)
Lemma g_trip_sim x : okp (fun t => fnz tfp t = fnz fp (v x) /\ (fnz fp (v x) = true -> fgse tfp t = fgse fp (v x) /\
    bop c (fst (fgse fp (v x))) (snd (fgse fp (v x))) (fset_f tfp t) =
    bop c (fst (fgse fp (v x))) (snd (fgse fp (v x))) (fset_f fp (v x)))) (g_trip so c x).
Proof.
  unfold g_trip. rewrite (l_nz _ _ _ SL). cbn [bind]. destruct (fnz fp (v x)).
  - rewrite (l_gse _ _ _ SL). cbn [bind]. destruct (fgse fp (v x)) as [lx expo].
    destruct (g_xz_sim lx expo x) as (xz & -> & EB). cbn [bind]. eexists. split; [reflexivity|]. cbn. auto.
  - eexists. split; [reflexivity|]. cbn. split; [reflexivity|discriminate].
Qed.

Lemma trips_sim (vx : list G) : forall h ts, length ts = length vx -> h < length vx ->
  okp (fun ts' => length ts' = length vx /\ (forall i, h < i -> nth i ts' t0 = nth i ts t0) /\
        forall i, i <= h -> g_trip so c (nth i vx gz) = Ok (nth i ts' t0))
      (mfold (fun i ts => let* t := g_trip so c (nth i vx gz) in Ok (lupd ts i t)) (down h 0) ts).
Proof.
  induction h as [|h IH]; intros ts L Hh.
  - change (down 0 0) with [0]. cbn [mfold]. destruct (g_trip_sim (nth 0 vx gz)) as (t & E & _). rewrite E. cbn [bind]. eexists. split; [reflexivity|].
    rewrite lupd_length. split; [exact L|]. split.
    + intros i Hi. now rewrite nth_lupd_neq by lia.
    + intros i Hi. replace i with 0 by lia. rewrite nth_lupd_eq by lia. exact E.
  - rewrite down_S. cbn [mfold]. destruct (g_trip_sim (nth (S h) vx gz)) as (t & E & _). rewrite E. cbn [bind].
    destruct (IH (lupd ts (S h) t)) as (ts' & -> & A1 & A2 & A3); [now rewrite lupd_length|lia|].
    exists ts'. split; [reflexivity|]. split; [exact A1|]. split.
    + intros i Hi. rewrite A2 by lia. now rewrite nth_lupd_neq by lia.
    + intros i Hi. destruct (Nat.eq_dec i (S h)) as [->|N]; [|apply A3; lia].
      rewrite A2 by lia. rewrite nth_lupd_eq by lia. exact E.
Qed.

Lemma psize_sim s kappa from vx : from < length vx ->
  from + 1 < d -> psize_nmax s from <= n ->
  rrel (fun s1 s2 => s1 = s2 /\ iS s1 = iS s) (g_psize_update_B so c s kappa from vx) (psize_update_B fp c s kappa from (map v vx)).
Proof.
  intros HL H1 H2. unfold g_psize_update_B.
  destruct (trips_sim vx from (repeat t0 (length vx))) as (ts & -> & A1 & _ & A3); auto; [apply repeat_length|].
  cbn [bind]. unfold psize_update_B.
  rewrite (proj2 (Nat.ltb_lt _ _) H1), (proj2 (Nat.leb_le _ _) H2). cbn [guard andb rrel].
  assert (ST : forall ib nl i B, i <= from ->
     psize_thread_step tfp c kappa ts ib nl i B = psize_thread_step fp c kappa (map v vx) ib nl i B).
  { intros ib nl i B Hi. unfold psize_thread_step. rewrite (nth_mapv v _ _ gz) by apply SL.
    specialize (A3 i Hi). destruct (g_trip_sim (nth i vx gz)) as (t & E & T1 & T2).
    rewrite A3 in E. injection E as <-. change (fzero tfp) with t0. rewrite T1.
    destruct (fnz fp (v (nth i vx gz))); [|reflexivity].
    destruct (T2 eq_refl) as [T3 T4]. rewrite T3. destruct (fgse fp (v (nth i vx gz))) as [lx expo]. cbn [fst snd] in T4.
    now rewrite T4. }
  cbn [iS]. split; [|reflexivity].
  f_equal. assert (TH : forall nmx S l B, psize_thread tfp c kappa from ts nmx S l B = psize_thread fp c kappa from (map v vx) nmx S l B).
  { intros nmx S l B. unfold psize_thread.
    assert (GEN : forall is B, (forall i, In i is -> i <= from) ->
      fold_left (fun B i => psize_thread_step tfp c kappa ts (slice_beg nmx S l) (slice_len nmx S l) i B) is B =
      fold_left (fun B i => psize_thread_step fp c kappa (map v vx) (slice_beg nmx S l) (slice_len nmx S l) i B) is B).
    { induction is as [|i is IH]; intros B0 HI; cbn [fold_left]; auto.
      rewrite ST by (apply HI; now left). apply IH. intros j Hj. apply HI. now right. }
    apply GEN. intros i I. apply in_down in I. lia. }
  generalize (iB s) as B. generalize (seq 0 (cS c)) as ls. induction ls as [|l ls IH]; intros B; cbn [fold_left]; auto.
  rewrite TH. apply IH.
Qed.

Definition hpinv s0 kappa nm D (t : ist * gst G M * list G * bool) (t' : ist * fst_ F * list F * bool) : Prop :=
  let '(s, g, vx, b) := t in let '(s', f, vx', b') := t' in
  s = s' /\ b = b' /\ vx' = map v vx /\ length vx = n /\ iS s = iS s0 /\ pinv s0 kappa nm D 0 g f b.

Lemma size_update_R_len g vx kappa from g' vx' b :
  g_size_update_R so mo g vx kappa from = Ok (g', vx', b) -> length vx' = length vx.
Proof.
  clear. unfold g_size_update_R. intros H.
  change (length (snd (fst (g', vx', b))) = length vx). revert H.
  apply (mfold_inv (fun t : gst G M * list G * bool => length (snd (fst t)) = length vx)); [|reflexivity].
  intros i [[g1 v1] b1] [[g2 v2] b2] _ E H. cbn [fst snd] in *. unfold g_size_update_R_step in H.
  binv H. binv H. binv H. binv H. binv H. destruct a3.
  - binv H. destruct a3 as [lx ex]. binv H. injection H as <- <- <-. now rewrite lupd_length.
  - injection H as <- <- <-. now rewrite lupd_length.
Qed.

Lemma hs_pass_sim s0 kappa nm D start s g f vx : swf s0 -> kappa < d -> start < kappa -> iS s = iS s0 -> length vx = n ->
  pinv s0 kappa nm D (start + 1) g f false ->
  rrel (hpinv s0 kappa nm D) (g_hs_pass so mo c s g vx kappa start) (hs_pass fp c s f (map v vx) kappa start).
Proof.
  intros HS Hk Hst ES LV P. unfold g_hs_pass, hs_pass. destruct (_ || _)%bool.
  - eapply rrel_bind; [eapply size_update_sim; eauto|].
    intros [[s1 g1] b1] [[s2 f1] b2] (<- & <- & E & P1). cbn [rrel hpinv]. auto 8.
  - pose proof (size_update_R_len g vx kappa start) as LN.
    pose proof (size_update_R_sim s0 kappa nm D start g f vx Hk Hst P) as Q.
    destruct (g_size_update_R so mo g vx kappa start) as [[[g1 vx1] b1]| |]; 
      destruct (size_update_R fp c f (map v vx) kappa start) as [[[f1 vx2] b2]| |]; cbn [rrel] in Q; try contradiction; cbn [bind]; [|exact I].
    destruct Q as (-> & <- & P1). specialize (LN _ _ _ eq_refl).
    eapply rrel_bind; [apply psize_sim; try lia|].
    + unfold psize_nmax. apply (fold_max_le c ND); [rewrite ES; apply HS; lia|]. intros i I0. apply in_down in I0. rewrite ES. apply HS. lia.
    + intros s1 s2 [<- E]. cbn [rrel hpinv].
      split; [reflexivity|]. split; [reflexivity|]. split; [reflexivity|]. split; [congruence|]. split; [|exact P1]. congruence.
Qed.

Lemma core_iS s s' kappa g f : iS s = iS s' -> core s kappa g f -> core s' kappa g f.
Proof. intros E [C1 C2 C3 C4]. split; auto. unfold bz in *. now rewrite <- E. Qed.

Lemma core_kept s kappa g f k b : core s kappa g f -> k < d -> core s kappa (put_kept (lupd (gkept g) k b) g) (set_kept (lupd (fkept f) k b) f).
Proof.
  intros [C1 C2 C3 C4] Hk. split; auto. pose proof (r_kept _ _ _ _ _ _ _ C1) as E. pose proof (r_wf _ _ _ _ _ _ _ C1) as RW.
  destruct C1. split; setg; auto; [now rewrite E|]. now apply fwd_kept.
Qed.

Lemma mu_anomaly_sim s kappa g f theta nm : core s kappa g f -> Rcol nm kappa g f -> kappa <= nm -> kappa < d ->
  forall l, (forall i, In i l -> i < kappa) ->
  rrel (fun a b => a = b) (g_mu_anomaly so mo (gR_ g) kappa theta l) (mu_anomaly fp c (fR f) kappa (v theta) l).
Proof.
  intros C RC Hn Hk. pose proof (c_rel _ _ _ _ _ _ _ _ _ C) as RL.
  induction l as [|i l IH]; intros HL; cbn [g_mu_anomaly mu_anomaly]; [reflexivity|].
  pose proof (HL i (or_introl eq_refl)) as Hi.
  destruct (l_get _ _ _ _ _ _ _ _ ML (gR_ g) i kappa) as (rik & -> & V1); try lia; [apply RL|]. cbn [bind].
  destruct (l_get _ _ _ _ _ _ _ _ ML (gR_ g) i i) as (rii & -> & V2); try lia; [apply RL|]. cbn [bind].
  rewrite !gR_ok by lia. cbn [bind].
  rewrite RC in V1 by lia. rewrite (c_R _ _ _ _ _ _ _ _ _ C i Hi) in V2 by lia.
  destruct (l_div _ _ _ SL rik rii) as (q & -> & Vq). cbn [bind].
  destruct (l_div _ _ _ SL theta rii) as (q2 & -> & Vq2). cbn [bind].
  destruct (l_add _ _ _ SL (s_abs so q2) (s_one so)) as (mt & -> & Vm). cbn [bind].
  rewrite (l_cmp1 _ _ _ SL), (l_abs _ _ _ SL), Vm, (l_abs _ _ _ SL), (l_one _ _ _ SL), Vq, Vq2, V1, V2.
  destruct (fcmp1 fp _ _); [reflexivity|]. apply IH. intros j Hj. apply HL. now right.
Qed.

Definition hinv s0 kappa D (t : ist * gst G M * bool) (t' : ist * fst_ F * bool) : Prop :=
  let '(s, g, b) := t in let '(s', f, b') := t' in
  s = s' /\ b = b' /\ iS s = iS s0 /\ pinv s0 kappa (nth kappa (iS s0) 0) D kappa g f false /\ fwf c f.

Lemma nB2_sim g f k : rel fp v mv mwf c g f -> nth k (fnB2 f) fz = v (nth k (gnB2 g) gz).
Proof. intros RL. rewrite (r_nB2 _ _ _ _ _ _ _ RL). apply nth_mapv. apply SL. Qed.

(** householder_r on a column whose reduction is in progress *)
Lemma again s0 kappa D s1 g1 f1 b : swf s0 -> kappa < d -> 1 <= kappa -> iS s1 = iS s0 ->
  pinv s0 kappa (nth kappa (iS s0) 0) D 0 g1 f1 b -> fwf c f1 ->
  rrel (fun g3 f3 => pinv s0 kappa (nth kappa (iS s0) 0) D kappa g3 f3 false /\ fwf c f3)
    (g_householder_r so mo c s1 (put_kept (lupd (gkept g1) kappa false) g1) kappa)
    (householder_r fp c s1 (set_kept (lupd (fkept f1) kappa false) f1) kappa).
Proof.
  intros HS Hk H1 E (A1 & _ & _ & A4 & A5 & A6) W.
  assert (HS1 : swf s1) by (unfold Sim2.swf; now rewrite E).
  eapply rrel_weaken; [|apply (householder_r_sim fp so mo v mv mwf c ND SL ML); auto].
  - intros g3 f3 ((B1 & B2 & B3 & B4 & B5) & B6). rewrite E in *. split; [|exact B6].
    pose proof (proj1 HS kappa Hk).
    split; [eapply core_iS; eauto|]. split; [intros i Hi; apply B3; lia|]. split; [auto|]. split; [auto|]. split; [setg; congruence|auto].
  - apply core_kept; auto. eapply core_iS; [|exact A1]. auto.
  - now apply fwf_kept_false.
  - intros _ _. rewrite E. exact A4.
Qed.

Lemma hs_loop_sim s0 kappa start D : swf s0 -> kappa < d -> start < kappa -> forall fuel s g f vx ns,
  iS s = iS s0 -> length vx = n -> pinv s0 kappa (nth kappa (iS s0) 0) D kappa g f false -> fwf c f ->
  rrel (hinv s0 kappa D) (g_hs_loop so mo c fuel s g vx ns kappa start) (hs_loop fp c fuel s f (map v vx) ns kappa start).
Proof.
  intros HS Hk Hst. pose proof (proj1 HS kappa Hk) as Hnm.
  induction fuel as [|fuel IH]; intros s g f vx ns ES LV P W; cbn [g_hs_loop hs_loop]; [exact I|].
  eapply rrel_bind.
  { apply rrel_safe; [eapply hs_pass_sim; eauto; eapply pinv_le; [|exact P]; lia|].
    apply hs_pass_safe; auto. intros j Hj. rewrite ES. now apply HS. }
  intros [[[s1 g1] vx1] sd] [[[s1' f1] vx1'] sd'] ((<- & <- & -> & LV1 & E1 & P1) & [_ W1]). cbn [fst snd] in W1.
  destruct sd.
  - pose proof P1 as (C1 & _). pose proof (c_rel _ _ _ _ _ _ _ _ _ C1) as R1.
    destruct (l_mul _ _ _ SL (s_01 so) (nth kappa (gnB2 g1) gz)) as (t & Et & Vt).
    setg. rewrite Et. cbn [bind].
    eapply rrel_bind; [eapply again; eauto; lia|].
    intros g3 f3 (P3 & W3). pose proof P3 as (C3 & RC3 & RN3 & _). pose proof (c_rel _ _ _ _ _ _ _ _ _ C3) as R3.
    rewrite (l_lt _ _ _ SL), Vt, (l_01 _ _ _ SL), <- (nB2_sim g1 f1 kappa R1), <- (nB2_sim g3 f3 kappa R3). cbn zeta.
    set (ns2 := flt fp (nth kappa (fnB2 f3) fz) (fmul fp (f01 fp) (nth kappa (fnB2 f1) fz))).
    destruct (negb ns && negb ns2)%bool.
    + destruct (l_sqrt _ _ _ SL (nth kappa (gnB2 g3) gz)) as (th0 & -> & V0). cbn [bind].
      destruct (l_mul _ _ _ SL th0 (s_eps so)) as (th & -> & V1). cbn [bind].
      rewrite V0, (l_eps _ _ _ SL), <- (nB2_sim g3 f3 kappa R3) in V1. rewrite <- V1.
      eapply rrel_bind; [eapply mu_anomaly_sim; eauto; try lia; intros i I0; apply in_seq in I0; lia|].
      intros a b <-. cbn [rrel hinv]. auto.
    + apply IH; auto.
  - cbn [rrel hinv]. split; [auto|]. split; [auto|]. split; [auto|]. split; [|exact W1].
    destruct P1 as (B1 & B2 & B3 & B4 & B5 & B6). split; [auto|]. split; [|auto].
    intros i Hi. apply B3; [auto|lia].
Qed.

Lemma hsizereduce_sim fuel s kappa D fromk g f : swf s -> 1 <= kappa < d -> core s kappa g f -> fwf c f -> gdesc g = D ->
  (1 <= nth kappa D 0 < kappa -> Kcol kappa (nth kappa (iS s) 0) g f) ->
  rrel (hinv s kappa D) (g_hsizereduce so mo c fuel s g kappa fromk) (hsizereduce fp c fuel s f kappa fromk).
Proof.
  intros HS Hk C W ED HK. pose proof (proj1 HS kappa (proj2 Hk)) as Hnm. unfold g_hsizereduce, hsizereduce.
  eapply rrel_bind; [apply (householder_r_sim fp so mo v mv mwf c ND SL ML); auto; try lia; intros _; rewrite ED; exact HK|].
  intros g1 f1 ((B1 & B2 & B3 & B4 & B5) & B6).
  replace (repeat fz n) with (map v (repeat gz n)).
  2:{ rewrite <- (l_zero _ _ _ SL). clear. induction n as [|k IH]; cbn; [reflexivity|]. now rewrite IH. }
  apply hs_loop_sim; auto; try lia.
  - unfold hs_start. destruct (0 <? fromk); lia.
  - apply repeat_length.
  - split; [auto|]. split; [intros i Hi; apply B3; lia|]. split; [auto|]. split; [apply B2; lia|]. split; [congruence|auto].
Qed.
End S3.
