(** * No out-of-bounds access when n >= d *)
From Coq Require Import ZArith Lia List Bool Arith.
From Verif Require Import Base Spec Mat FP Hlll Hlll2 Hlllp IntSteps HlllInt Structure Object.
Import ListNotations.

(** [safe P m]: m does not reach undefined behaviour, and its value satisfies P *)
Definition safe {A} (P : A -> Prop) (m : res A) : Prop :=
  match m with Ok a => P a | UB => False | NoFuel => True end.

Lemma safe_Ok {A} (P : A -> Prop) a : P a -> safe P (Ok a).
Proof. auto. Qed.
Lemma safe_bind {A B} (P : A -> Prop) (Q : B -> Prop) m k :
  safe P m -> (forall a, P a -> safe Q (k a)) -> safe Q (bind m k).
Proof. destruct m; cbn; auto; contradiction. Qed.
Lemma safe_guard {A} (P : A -> Prop) b m : b = true -> safe P m -> safe P (guard b m).
Proof. intros ->. auto. Qed.
Lemma safe_weaken {A} (P Q : A -> Prop) m : (forall a, P a -> Q a) -> safe P m -> safe Q m.
Proof. destruct m; cbn; auto. Qed.
Lemma safe_mfold {A S} (P : S -> Prop) (f : A -> S -> res S) l s :
  P s -> (forall a t, In a l -> P t -> safe P (f a t)) -> safe P (mfold f l s).
Proof.
  revert s. induction l as [|a l IH]; cbn; intros s Hs Hf; auto.
  eapply safe_bind; [apply Hf; auto|]. intros t Ht. apply IH; auto.
Qed.
Lemma safe_no_UB {A} (P : A -> Prop) m : safe P m -> m <> UB.
Proof. destruct m; cbn; congruence || contradiction. Qed.

Ltac bool_lia := repeat (apply andb_true_iff; split); (apply Nat.ltb_lt || apply Nat.leb_le); lia.

Section Safe.
Context {F : Type} (fp : fpops F) (c : cfg).
Notation n := (cn c).
Notation d := (cd c).
Hypothesis ND : d <= n.

Record fwf (f : fst_ F) : Prop := {
  w_R : wfm n d (fR f); w_Rk : wfm n d (fRk f); w_V : wfm n d (fV f); w_Bfp : wfm n d (fBfp f);
  w_VR : wfm d d (fVR f);
  w_nB2 : length (fnB2 f) = d; w_toR : length (ftoR f) = n;
  w_kept : length (fkept f) = d + 1; w_kmin : length (fkmin f) = d; w_desc : length (fdesc f) = d;
  w_nm : fnmax f <= n;
  w_km : forall j, j < d -> nth j (fkept f) false = true -> (0 <= nth j (fkmin f) 0)%Z }.

Definition sok (s : ist) : Prop := forall j, j < d -> nth j (iS s) 0 <= n.

Ltac setf := cbn [set_R set_Rk set_V set_Bfp set_VR set_nB2 set_x set_toR set_nmax set_kept set_kmin set_desc
                  fR fRk fV fBfp fVR fnB2 fx ftoR fnmax fkept fkmin fdesc] in *.

Lemma fwf_R f M : fwf f -> wfm n d M -> fwf (set_R M f).
Proof. intros [] H. split; setf; auto. Qed.
Lemma fwf_Rk f M : fwf f -> wfm n d M -> fwf (set_Rk M f).
Proof. intros [] H. split; setf; auto. Qed.
Lemma fwf_V f M : fwf f -> wfm n d M -> fwf (set_V M f).
Proof. intros [] H. split; setf; auto. Qed.
Lemma fwf_Bfp f M : fwf f -> wfm n d M -> fwf (set_Bfp M f).
Proof. intros [] H. split; setf; auto. Qed.
Lemma fwf_VR f M : fwf f -> wfm d d M -> fwf (set_VR M f).
Proof. intros [] H. split; setf; auto. Qed.
Lemma fwf_nB2 f M : fwf f -> length M = d -> fwf (set_nB2 M f).
Proof. intros [] H. split; setf; auto. Qed.
Lemma fwf_toR f M : fwf f -> length M = n -> fwf (set_toR M f).
Proof. intros [] H. split; setf; auto. Qed.
Lemma fwf_x f x : fwf f -> fwf (set_x x f).
Proof. intros []. split; setf; auto. Qed.
Lemma fwf_nmax f x : fwf f -> x <= n -> fwf (set_nmax x f).
Proof. intros [] H. split; setf; auto. Qed.
Lemma fwf_desc f M : fwf f -> length M = d -> fwf (set_desc M f).
Proof. intros [] H. split; setf; auto. Qed.

(** accesses *)
Lemma safe_gR M i j : i < n -> j < d -> safe (fun _ => True) (gR fp c M i j).
Proof. intros. apply safe_guard; [bool_lia|]. now cbn. Qed.
Lemma safe_gVR M i j : i < d -> j < d -> safe (fun _ => True) (gVR fp c M i j).
Proof. intros. apply safe_guard; [bool_lia|]. now cbn. Qed.
Lemma safe_gcol M j k : wfm n d M -> j < d -> k <= n -> safe (fun v : list F => length v = n - k) (gcol c M j k).
Proof.
  intros W Hj Hk. apply safe_guard; [bool_lia|]. cbn. rewrite skipn_length.
  now rewrite (wfm_col n d).
Qed.
Lemma safe_scalarprod v w l : 0 < length v -> 0 < length w -> l <= length v -> l <= length w ->
  safe (fun _ => True) (scalarprod fp v w l).
Proof.
  clear ND. intros. destruct v as [|a v]; [cbn in *; lia|]. destruct w as [|b w]; [cbn in *; lia|].
  apply safe_guard; [bool_lia|]. now cbn.
Qed.
Lemma safe_norm v l : 0 < length v -> l <= length v -> safe (fun _ => True) (fp_norm fp v l).
Proof.
  clear ND. intros. eapply safe_bind; [apply safe_scalarprod; lia|]. now cbn.
Qed.
Lemma safe_fmasub M j k w z a l : wfm n d M -> j < d -> k + l <= n -> l <= length w -> l <= length z ->
  safe (wfm n d) (fmasub fp c M j k w z a l).
Proof.
  intros W Hj Hk Hw Hz. apply safe_guard; [bool_lia|]. cbn [safe].
  apply wfm_lupd; [assumption|]. rewrite splice_length; rewrite map_length, seq_length || idtac;
    rewrite ?(wfm_col n d) by assumption; lia.
Qed.

(** same dimensions, col_kept, kappamin, descendu *)
Definition same_marks (f g : fst_ F) : Prop := fkept g = fkept f /\ fkmin g = fkmin f /\ fdesc g = fdesc f.

Lemma hr_step_safe kappa nmax dot k f : fwf f -> kappa < d -> nmax <= n -> k < d -> k <= nmax ->
  safe fwf (hr_step fp c kappa nmax dot k f).
Proof.
  intros W Hk Hn Hkd Hkn. unfold hr_step.
  eapply safe_bind; [apply safe_gcol; [apply W|lia|lia]|]. intros v Hv; cbn beta in Hv.
  eapply safe_bind with (P := fun w : list F => length w = n - k).
  { destruct (Nat.eqb_spec k 0) as [->|N].
    - apply safe_gcol; [apply W|lia|lia].
    - apply safe_gcol; [apply W|lia|lia]. }
  intros w Hw; cbn beta in Hw. eapply safe_bind with (P := fwf).
  { destruct (dot k).
    - eapply safe_bind; [apply safe_scalarprod; lia|]. intros p _.
      apply safe_guard; [bool_lia|]. cbn [safe]. apply fwf_VR; [assumption|]. apply wfm_mset, W.
    - now cbn. }
  intros f1 W1. eapply safe_bind; [apply safe_gVR; lia|]. intros a _.
  eapply safe_bind; [apply safe_fmasub; [apply W1|lia|lia|lia|lia]|]. intros rk Wrk. cbn [safe].
  now apply fwf_Rk.
Qed.

Lemma hr_loop_safe kappa nmax dot f : fwf f -> 1 <= kappa < d -> nmax <= n ->
  safe fwf (hr_loop fp c kappa nmax dot f).
Proof.
  intros W Hk Hn. unfold hr_loop. apply safe_mfold; [assumption|].
  intros k t I Wt. destruct I as [<-|I].
  - apply hr_step_safe; auto; lia.
  - apply in_seq in I. apply hr_step_safe; auto; lia.
Qed.

Lemma hr_final_safe kappa nmax f : fwf f -> kappa < d -> nmax <= n -> safe fwf (hr_final fp c kappa nmax f).
Proof.
  intros W Hk Hn. unfold hr_final. apply safe_guard; [bool_lia|]. cbn [safe].
  apply fwf_R.
  - apply fwf_toR; [assumption|]. rewrite splice_length; rewrite ?map_length, ?seq_length, (w_toR f W); lia.
  - setf. apply wfm_lupd; [apply W|]. rewrite splice_length;
      rewrite ?map_length, ?seq_length, (wfm_col n d) by (try apply W; lia); lia.
Qed.

Lemma setcol_wfm (M : mat F) kappa b nmax : wfm n d M -> kappa < d -> nmax <= n -> wfm n d (setcol_z fp M kappa b nmax).
Proof.
  intros W Hk Hn. apply wfm_lupd; [assumption|]. rewrite splice_length;
    rewrite ?map_length, ?seq_length, (wfm_col n d) by assumption; lia.
Qed.

Lemma copyR_wfm (f : fst_ F) (M : mat F) kappa nmax : wfm n d M -> wfm n d (fR f) -> kappa < d -> nmax <= n ->
  wfm n d (lupd (fR f) kappa (splice 0 (firstn nmax (col M kappa)) (col (fR f) kappa))).
Proof.
  intros WM W Hk Hn. apply wfm_lupd; [assumption|].
  rewrite splice_length; rewrite ?firstn_length, ?(wfm_col n d) by assumption; lia.
Qed.

(** after householder_r column kappa is marked; while marked its kappamin is >= 0 *)
Lemma fwf_kept_true f k : fwf f -> k < d -> (0 <= nth k (fkmin f) 0)%Z -> fwf (set_kept (lupd (fkept f) k true) f).
Proof.
  intros [] Hk H0. split; setf; auto; [now rewrite lupd_length|].
  intros j Hj. rewrite nth_lupd. destruct (Nat.eqb_spec j k) as [->|N]; cbn [andb]; auto.
Qed.
Lemma fwf_kept_false f k : fwf f -> k < d -> fwf (set_kept (lupd (fkept f) k false) f).
Proof.
  intros [] Hk. split; setf; auto; [now rewrite lupd_length|].
  intros j Hj. rewrite nth_lupd. destruct (Nat.eqb_spec j k) as [->|N]; cbn [andb]; auto.
  destruct (k <? length (fkept f)); [discriminate|auto].
Qed.
Lemma fwf_kmin_set f k : fwf f -> k < d -> fwf (set_kmin (lupd (fkmin f) k (Z.of_nat k)) f).
Proof.
  intros [] Hk. split; setf; auto; [now rewrite lupd_length|].
  intros j Hj. rewrite nth_lupd. destruct (Nat.eqb_spec j k) as [->|N]; cbn [andb]; auto.
  rewrite w_kmin0. replace (k <? d) with true by (symmetry; now apply Nat.ltb_lt). lia.
Qed.

(** fwf except that the column kappa has just been marked *)
Definition fwf_but (kappa : nat) (f : fst_ F) : Prop := fwf (set_kmin (lupd (fkmin f) kappa (Z.of_nat kappa)) f).

Lemma fwf_but_intro f kappa : fwf f -> kappa < d -> fwf_but kappa f.
Proof. intros. now apply fwf_kmin_set. Qed.

Lemma fwf_but_mark f kappa : fwf f -> kappa < d -> fwf_but kappa (set_kept (lupd (fkept f) kappa true) f).
Proof.
  intros W Hk. unfold fwf_but. setf.
  change (fwf (set_kept (lupd (fkept (set_kmin (lupd (fkmin f) kappa (Z.of_nat kappa)) f)) kappa true)
                        (set_kmin (lupd (fkmin f) kappa (Z.of_nat kappa)) f))).
  apply fwf_kept_true; [now apply fwf_kmin_set|assumption|].
  setf. rewrite nth_lupd_eq; [lia|]. now rewrite (w_kmin f W).
Qed.

(** hr_step and hr_final neither read nor write kappamin *)
Lemma hr_step_kmin kappa nmax dot k f km :
  hr_step fp c kappa nmax dot k (set_kmin km f) =
  match hr_step fp c kappa nmax dot k f with Ok g => Ok (set_kmin km g) | UB => UB | NoFuel => NoFuel end.
Proof.
  unfold hr_step. setf. destruct (gcol c (fV f) k k); cbn [bind]; auto.
  destruct (if k =? 0 then _ else _); cbn [bind]; auto.
  destruct (dot k).
  - destruct (scalarprod fp a a0 (nmax - k)); cbn [bind]; auto.
    unfold guard. destruct ((k <? d) && (kappa <? d)); cbn [bind]; auto. setf.
    destruct (gVR _ _ _ _); cbn [bind]; auto.
    destruct (fmasub _ _ _ _ _ _ _ _ _); cbn [bind]; auto.
  - cbn [bind]. setf. destruct (gVR _ _ _ _); cbn [bind]; auto.
    destruct (fmasub _ _ _ _ _ _ _ _ _); cbn [bind]; auto.
Qed.

Lemma hr_loop_kmin_gen kappa nmax dot km ks : forall f,
  mfold (hr_step fp c kappa nmax dot) ks (set_kmin km f) =
  match mfold (hr_step fp c kappa nmax dot) ks f with Ok g => Ok (set_kmin km g) | UB => UB | NoFuel => NoFuel end.
Proof.
  induction ks as [|k ks IH]; intros f; cbn [mfold]; auto.
  rewrite hr_step_kmin. destruct (hr_step _ _ _ _ _ k f); cbn [bind]; auto.
Qed.

Lemma hr_loop_kmin_same kappa nmax dot f g : hr_loop fp c kappa nmax dot f = Ok g -> fkmin g = fkmin f.
Proof.
  unfold hr_loop. apply (mfold_inv (fun t => fkmin t = fkmin f)); auto.
  clear. intros k t t' _ E H. unfold hr_step in H. repeat binv H.
  destruct (dot k).
  - repeat binv Ha1. injection Ha1 as <-. injection H as <-. setf. auto.
  - injection Ha1 as <-. injection H as <-. setf. auto.
Qed.

Lemma hr_loop_but kappa nmax dot f : fwf_but kappa f -> 1 <= kappa < d -> nmax <= n ->
  safe (fwf_but kappa) (hr_loop fp c kappa nmax dot f).
Proof.
  intros W Hk Hn. unfold fwf_but in W.
  pose proof (hr_loop_safe kappa nmax dot _ W Hk Hn) as S.
  unfold hr_loop in S. rewrite hr_loop_kmin_gen in S.
  pose proof (hr_loop_kmin_same kappa nmax dot f) as E. unfold hr_loop in *.
  destruct (mfold _ _ f) as [g| |]; cbn [safe] in *; auto.
  unfold fwf_but. now rewrite (E g eq_refl).
Qed.

Lemma householder_r_safe s f kappa : fwf f -> sok s -> kappa < d ->
  safe fwf (householder_r fp c s f kappa).
Proof.
  intros W Hs Hk. unfold householder_r. apply safe_guard; [bool_lia|].
  specialize (Hs kappa Hk). apply safe_guard; [bool_lia|].
  set (nmax := nth kappa (iS s) 0) in *. set (f0 := set_nmax nmax f).
  assert (W0 : fwf f0) by now apply fwf_nmax.
  apply safe_bind with (P := fwf_but kappa); [|auto].
  assert (GB : forall b, wfm n d (setcol_z fp (fBfp f0) kappa b nmax))
    by (intros b; apply setcol_wfm; [apply W0|lia|lia]).
  destruct (Nat.eqb_spec kappa 0) as [E|E].
  - destruct (nth kappa (fkept f0) false).
    + cbn [safe]. apply fwf_but_intro; [|lia]. apply fwf_R; [assumption|].
      apply copyR_wfm; try apply W0; lia.
    + assert (WR : wfm n d (lupd (fR f0) kappa (splice 0 (firstn nmax (col (setcol_z fp (fBfp f0) kappa (col (iB s) kappa) nmax) kappa)) (col (fR f0) kappa))))
        by (apply copyR_wfm; try apply W0; auto; lia).
      setf. eapply safe_bind with (P := fun _ => True).
      { eapply safe_bind; [apply safe_gcol; [exact WR|lia|lia]|]. intros v Hv; cbn beta in Hv. apply safe_scalarprod; lia. }
      intros q _. cbn [safe].
      pose proof (fwf_but_mark f0 kappa W0 Hk) as M. unfold fwf_but in *. setf.
      change (fwf (set_nB2 (lupd (fnB2 f0) kappa q) (set_R (lupd (fR f0) kappa (splice 0 (firstn nmax (col (setcol_z fp (fBfp f0) kappa (col (iB s) kappa) nmax) kappa)) (col (fR f0) kappa)))
               (set_Bfp (setcol_z fp (fBfp f0) kappa (col (iB s) kappa) nmax)
                 (set_kmin (lupd (fkmin f0) kappa (Z.of_nat kappa)) (set_kept (lupd (fkept f0) kappa true) f0)))))).
      apply fwf_nB2; [|rewrite lupd_length; apply W0].
      apply fwf_R; [|exact WR]. apply fwf_Bfp; [exact M|apply GB].
  - eapply safe_bind with (P := fwf_but kappa).
    + destruct (nth kappa (fkept f0) false) eqn:K.
      * destruct (_ || _)%bool.
        { pose proof (w_km f0 W0 kappa Hk K) as KM.
          destruct (Z.ltb_spec (nth kappa (fkmin f0) 0%Z) 0); [lia|].
          apply hr_loop_but; [now apply fwf_but_intro|lia|lia]. }
        cbn [safe]. now apply fwf_but_intro.
      * setf. eapply safe_bind with (P := fun _ => True).
        { eapply safe_bind; [apply safe_gcol; [apply GB|lia|lia]|]. intros v Hv; cbn beta in Hv. apply safe_scalarprod; lia. }
        intros q _. apply hr_loop_but; [|lia|lia].
        pose proof (fwf_but_mark f0 kappa W0 Hk) as M. unfold fwf_but in *. setf.
        change (fwf (set_nB2 (lupd (fnB2 f0) kappa q) 
               (set_Bfp (setcol_z fp (fBfp f0) kappa (col (iB s) kappa) nmax)
                 (set_kmin (lupd (fkmin f0) kappa (Z.of_nat kappa)) (set_kept (lupd (fkept f0) kappa true) f0))))).
        apply fwf_nB2; [|rewrite lupd_length; apply W0].
        apply fwf_Bfp; [exact M|apply GB].
    + intros f4 W4. unfold fwf_but in W4.
      pose proof (hr_final_safe kappa nmax _ W4 Hk Hs) as S.
      unfold hr_final, guard in *. destruct ((kappa <? d) && (nmax <=? n)); [|contradiction].
      cbn [safe] in *. setf. unfold fwf_but. setf. exact S.
Qed.

Lemma householder_v_safe f kappa : fwf f -> kappa < d -> safe fwf (householder_v fp c f kappa).
Proof.
  intros W Hk. pose proof (w_nm f W) as Hn. unfold householder_v.
  eapply safe_bind; [apply safe_gR; lia|]. intros w0 _.
  eapply safe_bind; [apply safe_gcol; [apply W|lia|lia]|]. intros rc Hrc; cbn beta in Hrc.
  apply safe_guard; [bool_lia|].
  eapply safe_bind; [apply safe_norm; lia|]. intros nr _.
  destruct (if fle fp (fzero fp) w0 then _ else _) as [s rkk]. cbn [safe].
  apply fwf_V.
  - apply fwf_R; [assumption|]. apply wfm_mset, W.
  - setf. apply wfm_lupd; [apply W|]. now rewrite map_length, seq_length.
Qed.

(** the structure vector is not changed by the reductions *)
Definition good (s0 : ist) (st : ist * fst_ F) : Prop := iS (fst st) = iS s0 /\ fwf (snd st).

Lemma sok_eq s s' : iS s' = iS s -> sok s -> sok s'.
Proof. unfold sok. now intros ->. Qed.

Lemma size_update_safe s f kappa from : fwf f -> sok s -> from < kappa -> kappa < d ->
  safe (fun t => good s (fst t)) (size_update fp c s f kappa from).
Proof.
  intros W Hs Hf Hk. unfold size_update. apply safe_mfold; [now split|].
  intros i [[s1 f1] b] I [E W1]. cbn [fst snd] in *. apply in_down in I.
  unfold size_update_step.
  eapply safe_bind; [apply safe_gR; lia|]. intros rik _.
  eapply safe_bind; [apply safe_gR; lia|]. intros rii _.
  destruct (fnz fp _).
  - destruct (fgse fp _) as [lx expo]. apply safe_guard.
    { rewrite E. apply Nat.leb_le. apply Hs. lia. }
    cbn [safe]. split; cbn [fst snd iS]; auto. apply fwf_R; [now apply fwf_x|]. apply wfm_colop. setf. apply W1.
  - cbn [safe]. split; cbn [fst snd]; auto. now apply fwf_x.
Qed.

Lemma size_update_R_safe f vx kappa from : fwf f -> from < kappa -> kappa < d ->
  safe (fun t => fwf (fst (fst t))) (size_update_R fp c f vx kappa from).
Proof.
  intros W Hf Hk. unfold size_update_R. apply safe_mfold; [assumption|].
  intros i [[f1 v1] b] I W1. cbn [fst] in *. apply in_down in I. unfold size_update_R_step.
  eapply safe_bind; [apply safe_gR; lia|]. intros rik _.
  eapply safe_bind; [apply safe_gR; lia|]. intros rii _.
  destruct (fnz fp _).
  - destruct (fgse fp _) as [lx expo]. cbn [safe fst].
    apply fwf_R; [now apply fwf_x|]. apply wfm_colop. setf. apply W1.
  - cbn [safe fst]. now apply fwf_x.
Qed.

Lemma fold_max_le (g : nat -> nat) l m b : m <= b -> (forall i, In i l -> g i <= b) ->
  fold_left (fun m i => max m (g i)) l m <= b.
Proof.
  revert m. induction l as [|i l IH]; cbn; intros m Hm Hl; auto.
  apply IH; auto. pose proof (Hl i (or_introl eq_refl)). lia.
Qed.

Lemma hs_pass_safe s f vx kappa start : fwf f -> sok s -> start < kappa -> kappa < d ->
  safe (fun t => good s (fst (fst t))) (hs_pass fp c s f vx kappa start).
Proof.
  intros W Hs Hst Hk. unfold hs_pass. destruct (_ || _)%bool.
  - eapply safe_bind; [now apply size_update_safe|]. intros [[s1 f1] sd] G. exact G.
  - eapply safe_bind; [apply size_update_R_safe; eauto|]. intros [[f1 v1] sd] G. cbn [fst] in G.
    unfold psize_update_B. eapply safe_bind with (P := fun s1 => iS s1 = iS s).
    + apply safe_guard; [|reflexivity]. apply andb_true_iff. split; [apply Nat.ltb_lt; lia|].
      apply Nat.leb_le. unfold psize_nmax. apply fold_max_le; [apply Hs; lia|].
      intros i I. apply in_down in I. apply Hs. lia.
    + intros s1 E. cbn [safe fst snd]. split; auto.
Qed.

Lemma mu_anomaly_safe R kappa theta l : (forall i, In i l -> i < d) -> kappa < d ->
  safe (fun _ => True) (mu_anomaly fp c R kappa theta l).
Proof.
  intros Hl Hk. induction l as [|i l IH]; cbn [mu_anomaly]; [now cbn|].
  pose proof (Hl i (or_introl eq_refl)).
  eapply safe_bind; [apply safe_gR; lia|]. intros rik _.
  eapply safe_bind; [apply safe_gR; lia|]. intros rii _.
  destruct (fcmp1 fp _ _); [now cbn|]. apply IH. intros j Hj. apply Hl. now right.
Qed.

Lemma hs_loop_safe fuel s0 kappa start : sok s0 -> start < kappa -> kappa < d -> forall s f vx ns,
  fwf f -> iS s = iS s0 ->
  safe (fun t => good s0 (fst t)) (hs_loop fp c fuel s f vx ns kappa start).
Proof.
  intros Hs Hst Hk. induction fuel as [|fuel IH]; intros s f vx ns W E; cbn [hs_loop]; [now cbn|].
  eapply safe_bind; [apply hs_pass_safe; eauto using sok_eq|].
  intros [[[s1 f1] v1] sd] [E1 W1]. cbn [fst snd] in *. rewrite E in E1.
  destruct sd; [|cbn; now split].
  eapply safe_bind; [apply householder_r_safe; eauto using sok_eq|].
  { now apply fwf_kept_false. }
  intros f3 W3. destruct (negb ns && negb _)%bool.
  - eapply safe_bind; [apply mu_anomaly_safe|].
    + intros i I. apply in_seq in I. lia.
    + assumption.
    + intros b _. cbn. now split.
  - apply IH; auto.
Qed.

Lemma hsizereduce_safe fuel s f kappa fromk : fwf f -> sok s -> 1 <= kappa < d ->
  safe (fun t => good s (fst t)) (hsizereduce fp c fuel s f kappa fromk).
Proof.
  intros W Hs Hk. unfold hsizereduce.
  eapply safe_bind; [apply householder_r_safe; auto; lia|]. intros f1 W1.
  apply hs_loop_safe; auto; try lia. unfold hs_start. destruct (0 <? fromk); lia.
Qed.

Definition good5 (s0 : ist) (st : ist * fst_ F * list F * list F * bool) : Prop :=
  let '(s, f, vx, tmp, b) := st in iS s = iS s0 /\ fwf f.

Lemma seysen_block_safe s0 kappa ix bd st : sok s0 -> kappa < d -> ix + bd <= kappa -> good5 s0 st ->
  safe (good5 s0) (seysen_block fp c kappa ix bd st).
Proof.
  intros Hs Hk Hb G. destruct st as [[[[s f] vx] tmp] dn]. destruct G as [E W]. unfold seysen_block.
  assert (RB : forall i, In i (block_rows kappa ix bd) -> i < kappa).
  { intros i I. unfold block_rows in I. rewrite <- in_rev in I. apply in_seq in I. lia. }
  eapply safe_bind with (P := fun _ => True).
  { apply safe_mfold; auto. intros i t I _. apply RB in I.
    eapply safe_bind; [apply safe_gR; lia|]. now cbn. }
  intros tmp1 _. eapply safe_bind with (P := fun _ => True).
  { apply safe_mfold; auto. intros i [v t] I _. apply RB in I. unfold seysen_coefs_step.
    eapply safe_bind; [apply safe_gR; lia|]. intros rii _. apply safe_guard; [bool_lia|]. now cbn. }
  intros [vx1 tmp2] _. destruct (_ || _)%bool; [|cbn; auto].
  eapply safe_bind with (P := fun st => let '(s1, f1, v1, b1) := st in iS s1 = iS s0 /\ fwf f1).
  { apply safe_mfold; auto. intros i [[[s1 f1] v1] b1] I [E1 W1]. apply RB in I. unfold seysen_update_step.
    destruct (fnz fp _); [|cbn; auto]. destruct (fgse fp _) as [lx expo]. apply safe_guard.
    { apply andb_true_iff. split; apply Nat.leb_le; [rewrite E1; apply Hs; lia|lia]. }
    cbn. split; auto. apply fwf_R; [assumption|]. apply wfm_colop, W1. }
  intros [[[s1 f1] v1] b1] G1. exact G1.
Qed.

Lemma seysen_loop_safe fuel s0 kappa : sok s0 -> 1 <= kappa < d -> forall s f vx tmp n0 n1,
  fwf f -> iS s = iS s0 -> safe (good s0) (seysen_loop fp c fuel s f vx tmp n0 n1 kappa).
Proof.
  intros Hs Hk. induction fuel as [|fuel IH]; intros s f vx tmp n0 n1 W E; cbn [seysen_loop]; [now cbn|].
  eapply safe_bind with (P := good5 s0).
  { unfold seysen_pass. apply safe_mfold; [now split|]. intros [ix bd] t I G. cbn [fst snd].
    apply seysen_block_safe; auto; [lia|].
    change (fst (ix, bd) + snd (ix, bd) <= kappa).
    apply (seysen_blocks_le (kappa + 1) 0). cbn [Nat.pow]. rewrite Nat.mod_1_r. exact I. }
  intros [[[[s1 f1] v1] t1] sd] [E1 W1]. destruct sd; [|cbn; now split].
  eapply safe_bind; [apply householder_r_safe; eauto using sok_eq; try lia|].
  { apply fwf_kept_false; auto; lia. }
  intros f3 W3. destruct (negb _).
  - eapply safe_bind; [apply safe_gR; lia|]. intros _ _.
    eapply safe_bind; [apply safe_gR; lia|]. intros _ _. cbn. now split.
  - apply IH; auto.
Qed.

Lemma reduce_safe fuel s f kappa : fwf f -> sok s -> 1 <= kappa < d ->
  safe (fun t => good s (fst t)) (reduce fp c fuel s f kappa).
Proof.
  intros W Hs Hk. unfold reduce. destruct (_ <? _)%Z.
  - now apply hsizereduce_safe.
  - unfold seysenreduce. eapply safe_bind; [apply householder_r_safe; auto; [apply fwf_nmax; [assumption|apply Hs; lia]|lia]|].
    intros f1 W1. eapply safe_bind; [apply seysen_loop_safe; eauto|].
    intros [s2 f2] G. exact G.
Qed.

(** newseysenreduce *)
Definition good6 (s0 : ist) (st : ist * fst_ F * list F * list F * list bool * bool) : Prop :=
  let '(s, f, vx, tmp, bd, b) := st in iS s = iS s0 /\ fwf f.

Lemma ns_block_safe c501 s0 kappa ix bd st : sok s0 -> kappa < d -> ix + bd <= kappa -> good6 s0 st ->
  safe (good6 s0) (ns_block fp c c501 kappa ix bd st).
Proof.
  intros Hs Hk Hb G. destruct st as [[[[[s f] vx] tmp] bdd] dn]. destruct G as [E W]. unfold ns_block.
  assert (RB : forall i, In i (block_rows kappa ix bd) -> i < kappa).
  { intros i I. unfold block_rows in I. rewrite <- in_rev in I. apply in_seq in I. lia. }
  eapply safe_bind with (P := fun _ => True).
  { apply safe_mfold; auto. intros i t I _. apply RB in I.
    eapply safe_bind; [apply safe_gR; lia|]. now cbn. }
  intros tmp1 _. eapply safe_bind with (P := fun _ => True).
  { apply safe_mfold; auto. intros i [[[v t] b1] b2] I _. apply RB in I. unfold ns_coefs_step.
    eapply safe_bind; [apply safe_gR; lia|]. intros rii _. apply safe_guard; [bool_lia|]. now cbn. }
  intros [[[vx1 tmp2] bd1] sd1] _.
  eapply safe_bind with (P := wfm n d).
  { apply safe_mfold; [apply W|]. intros i M I WM. unfold ns_R_step. destruct (nth i bd1 true); [exact WM|].
    destruct (fgse fp _) as [lx expo]. apply safe_guard; [bool_lia|]. cbn [safe]. now apply wfm_colop. }
  intros R1 WR. eapply safe_bind with (P := fun s1 => iS s1 = iS s0).
  { apply safe_mfold; [assumption|]. intros i s1 I E1. apply RB in I. unfold ns_B_step. destruct (nth i bd1 true); [exact E1|].
    destruct (fgse fp _) as [lx expo]. apply safe_guard; [apply Nat.leb_le; rewrite E1; apply Hs; lia|]. exact E1. }
  intros s1 E1. cbn [safe]. split; [exact E1|]. now apply fwf_R.
Qed.

Lemma ns_loop_safe fuel c501 s0 kappa : sok s0 -> 1 <= kappa < d -> forall s f vx tmp bd,
  fwf f -> iS s = iS s0 -> safe (good s0) (ns_loop fp c fuel c501 s f vx tmp bd kappa).
Proof.
  intros Hs Hk. induction fuel as [|fuel IH]; intros s f vx tmp bd W E; cbn [ns_loop]; [now cbn|].
  eapply safe_bind with (P := good6 s0).
  { apply safe_mfold; [now split|]. intros [ix bdm] t I G. cbn [fst snd].
    apply ns_block_safe; auto; [lia|].
    change (fst (ix, bdm) + snd (ix, bdm) <= kappa).
    apply (seysen_blocks_le (kappa + 1) 0). cbn [Nat.pow]. rewrite Nat.mod_1_r. exact I. }
  intros [[[[[s1 f1] v1] t1] b1] sd] [E1 W1]. destruct sd; [|cbn; now split].
  eapply safe_bind; [apply householder_r_safe; eauto using sok_eq; try lia|].
  { apply fwf_kept_false; auto; lia. }
  intros f3 W3. apply IH; auto.
Qed.

Lemma reducep_safe fuel c501 dthr s f kappa : fwf f -> sok s -> 1 <= kappa < d ->
  safe (fun t => good s (fst t)) (reducep fp c fuel c501 dthr s f kappa).
Proof.
  intros W Hs Hk. pose proof (reduce_safe fuel s f kappa W Hs Hk) as R. unfold reduce in R. unfold reducep. destruct (_ <? _)%Z; [exact R|].
  destruct (_ <? _)%Z; [|exact R].
  unfold newseysenreduce. eapply safe_bind; [apply householder_r_safe; auto; lia|].
  intros f1 W1. eapply safe_bind; [apply ns_loop_safe; eauto|]. intros [s2 f2] G. exact G.
Qed.

Lemma hlll_enter_safe s f kappa : fwf (set_nmax 0 f) -> (kappa <> 1 -> fwf f) -> sok s -> 1 <= kappa < d ->
  safe fwf (hlll_enter fp c s f kappa).
Proof.
  intros W0 W Hs Hk. unfold hlll_enter. destruct (Nat.eqb_spec kappa 1) as [E|E].
  - pose (f1 := set_kmin (map (fun z => Z.min z 0) (fkmin (set_nmax 0 f))) (set_nmax 0 f)).
    assert (W1 : fwf f1).
    { destruct W0. split; unfold f1; setf; auto; [now rewrite map_length|].
      intros j Hj K. specialize (w_km0 j Hj K).
      rewrite nth_indep with (d' := (fun z => Z.min z 0) 0%Z) by (rewrite map_length; lia).
      rewrite (map_nth (fun z => Z.min z 0)). lia. }
    assert (E1 : householder_r fp c s (set_kmin (map (fun z : Z => Z.min z 0) (fkmin f)) f) 0
                 = householder_r fp c s f1 0) by reflexivity.
    rewrite E1. eapply safe_bind; [apply householder_r_safe; auto; lia|].
    intros f2 W2. apply householder_v_safe; auto; lia.
  - cbn [safe]. specialize (W E). destruct W. split; setf; auto.
    + now rewrite imap_length.
    + intros j Hj K. rewrite nth_imap with (da := 0%Z) by lia.
      specialize (w_km0 j Hj K). destruct (kappa <? j); lia.
Qed.

Lemma lovasz_safe delta s f kappa : fwf f -> sok s -> 1 <= kappa < d ->
  safe (fun _ => True) (lovasz fp c delta s f kappa).
Proof.
  intros W Hs Hk. unfold lovasz.
  eapply safe_bind; [apply safe_gR; lia|]. intros rp _.
  eapply safe_bind; [apply safe_gcol; [apply W|lia|lia]|]. intros rc Hrc; cbn beta in Hrc.
  assert (kappa < d) as Hkd by lia. pose proof (Hs kappa Hkd).
  eapply safe_bind; [apply safe_norm; lia|]. intros s0 _.
  eapply safe_bind; [apply safe_gR; lia|]. now cbn.
Qed.

Lemma swap_f_fwf f kappa : fwf f -> 1 <= kappa < d -> fwf (swap_f fp f kappa).
Proof.
  intros [] Hk. unfold swap_f. split; setf; auto.
  - apply wfm_colswap; auto; lia.
  - apply wfm_colswap; auto; lia.
  - now rewrite !lupd_length.
  - destruct (kappa =? 1); now rewrite !lupd_length.
Qed.

Lemma swap_i_sok s kappa : sok s -> 1 <= kappa < d -> sok (swap_i c s kappa).
Proof.
  intros Hs Hk j Hj. unfold swap_i. cbn [iS]. rewrite nth_lupd. destruct (_ && _)%bool; apply Hs; lia.
Qed.

Definition gooda (t : hres (F := F)) : Prop :=
  let '(r, s, f, q) := t in sok s /\ fwf (set_nmax 0 f).

Lemma hlll_loop_safe fuel delta vb s f kappa pk pR q :
  ckmax c <= d -> fwf (set_nmax 0 f) -> (kappa <> 1 -> fwf f) -> sok s -> 1 <= kappa ->
  safe gooda (hlll_loop fp c fuel delta vb s f kappa pk pR q).
Proof.
  intros Hmax. revert s f kappa pk pR q.
  assert (NM : forall f, fwf f -> fwf (set_nmax 0 f)) by (intros; apply fwf_nmax; auto; lia).
  induction fuel as [|fuel IH]; intros s f kappa pk pR q W0 W Hs Hk; cbn [hlll_loop].
  - destruct (negb _); [|now cbn]. now split.
  - destruct (negb _) eqn:E; [now split|].
    apply negb_false_iff, andb_true_iff in E. rewrite Nat.ltb_lt, Z.ltb_lt in E. destruct E as [E1 E2].
    eapply safe_bind; [apply hlll_enter_safe; auto; lia|]. intros f1 W1.
    eapply safe_bind; [apply reduce_safe; auto; lia|]. intros [[s2 f2] failed] [ES W2]. cbn [fst snd] in *.
    assert (Hs2 : sok s2) by (eapply sok_eq; eauto).
    destruct failed; [cbn; auto|].
    eapply safe_bind; [apply lovasz_safe; auto; lia|]. intros [lt nt] _.
    destruct (fle fp lt nt).
    + apply safe_guard; [bool_lia|].
      eapply safe_bind; [apply householder_v_safe; auto; lia|]. intros f3 W3.
      eapply safe_bind; [apply safe_gR; lia|]. intros rkk _.
      destruct (_ && _)%bool; [cbn; auto|].
      assert (W4 : fwf (set_desc (if kappa =? 1 then lupd (lupd (fdesc f3) kappa 0) 0 0 else lupd (fdesc f3) kappa 0) f3)).
      { apply fwf_desc; auto. destruct (kappa =? 1); rewrite ?lupd_length; apply W3. }
      apply IH; auto. lia.
    + apply safe_guard; [bool_lia|].
      assert (W4 : fwf (swap_f fp f2 kappa)) by (apply swap_f_fwf; auto; lia).
      apply IH; auto; [|lia]. apply swap_i_sok; auto. lia.
Qed.

Lemma hlllp_loop_safe fuel c501 delta dthr s f kappa pk pR q :
  fwf (set_nmax 0 f) -> (kappa <> 1 -> fwf f) -> sok s -> 1 <= kappa ->
  safe gooda (hlllp_loop fp c fuel c501 delta dthr s f kappa pk pR q).
Proof.
  revert s f kappa pk pR q.
  assert (NM : forall f, fwf f -> fwf (set_nmax 0 f)) by (intros; apply fwf_nmax; auto; lia).
  induction fuel as [|fuel IH]; intros s f kappa pk pR q W0 W Hs Hk; cbn [hlllp_loop].
  - destruct (negb _); [|now cbn]. now split.
  - destruct (negb _) eqn:E; [now split|].
    apply negb_false_iff, andb_true_iff in E. rewrite Nat.ltb_lt, Z.ltb_lt in E. destruct E as [E1 E2].
    eapply safe_bind; [apply hlll_enter_safe; auto; lia|]. intros f1 W1.
    eapply safe_bind; [apply reducep_safe; auto; lia|]. intros [[s2 f2] failed] [ES W2]. cbn [fst snd] in *.
    assert (Hs2 : sok s2) by (eapply sok_eq; eauto).
    destruct failed; [cbn; auto|].
    eapply safe_bind; [apply lovasz_safe; auto; lia|]. intros [lt nt] _.
    destruct (fle fp lt nt).
    + eapply safe_bind; [apply householder_v_safe; auto; lia|]. intros f3 W3.
      eapply safe_bind; [apply safe_gR; lia|]. intros rkk _.
      destruct (_ && _)%bool; [cbn; auto|].
      assert (W4 : fwf (set_desc (if kappa =? 1 then lupd (lupd (fdesc f3) kappa 0) 0 0 else lupd (fdesc f3) kappa 0) f3)).
      { apply fwf_desc; auto. destruct (kappa =? 1); rewrite ?lupd_length; apply W3. }
      apply IH; auto. lia.
    + assert (W4 : fwf (swap_f fp f2 kappa)) by (apply swap_f_fwf; auto; lia).
      apply IH; auto; [|lia]. now apply swap_i_sok.
Qed.

End Safe.

(** when n < d a run that returns 0 within the budget is impossible *)
Section Wide.
Context {F : Type} (fp : fpops F) (c : cfg).

Lemma hlll_loop_wide fuel delta vb s f kappa pk pR q s' f' q' :
  hlll_loop fp c fuel delta vb s f kappa pk pR q = Ok (0%Z, s', f', q') ->
  cn c < ckmax c -> (kappa <= cn c \/ kappa = 1) -> (nblov q' < cnblov_max c)%Z -> 2 <= ckmax c -> False.
Proof.
  intros H Hn Hk Hq Hd. revert s f kappa pk pR q H Hk.
  induction fuel as [|fuel IH]; intros s f kappa pk pR q H Hk.
  - cbn [hlll_loop] in H. destruct (negb _) eqn:E; [|discriminate]. injection H as <- <- <-.
    apply negb_true_iff, andb_false_iff in E. rewrite Nat.ltb_ge, Z.ltb_ge in E.
    destruct vb; cbn in Hq; lia.
  - cbn [hlll_loop] in H. destruct (negb _) eqn:E.
    { injection H as <- <- <-.
      apply negb_true_iff, andb_false_iff in E. rewrite Nat.ltb_ge, Z.ltb_ge in E.
      destruct vb; cbn in Hq; lia. }
    binv H. binv H. destruct a0 as [[s2 f2] failed].
    destruct failed; [discriminate|].
    binv H. destruct a0 as [lt nt].
    destruct (fle fp lt nt).
    + binv H. binv H. binv H.
      match type of H with context [if ?b then _ else _] => destruct b end; [discriminate|].
      unfold gR in Ha3. apply guard_Ok in Ha3 as [G _]. apply andb_true_iff in G as [G _].
      apply Nat.ltb_lt in G. apply IH in H; auto. left. lia.
    + binv H. apply IH in H; auto. lia.
Qed.
End Wide.

(** ** Objects *)
Section SafeObj.
Context {F : Type}.

Ltac setf := cbn [set_R set_Rk set_V set_Bfp set_VR set_nB2 set_x set_toR set_nmax set_kept set_kmin set_desc
                  fR fRk fV fBfp fVR fnB2 fx ftoR fnmax fkept fkmin fdesc] in *.

Definition lsafe (n d : nat) (L : lattice F) : Prop :=
  cn (lcfg L) = n /\ cd (lcfg L) = d /\ ckmax (lcfg L) = d /\
  sok (lcfg L) (li L) /\ fwf (lcfg L) (set_nmax 0 (lf L)).

Lemma fwf_setprec (fp : fpops F) c J f : length (fkept f) = cd c + 1 -> length (fkmin f) = cd c -> length (fdesc f) = cd c ->
  fnmax f <= cn c -> (forall j, j < cd c -> nth j (fkept f) false = true -> (0 <= nth j (fkmin f) 0)%Z) ->
  fwf c (setprec fp c J f).
Proof.
  intros. split; unfold setprec; cbn; auto; try apply mtab_wfm; now rewrite map_length, seq_length.
Qed.

Lemma fwf_mtab_new (fp : fpops F) J n d u m lg :
  fwf (mkCfg n d u d 4294967295%Z m lg 1 1000000%Z) (set_nmax 0 (init_f fp J n d)).
Proof.
  split; unfold init_f; cbn; try apply mtab_wfm; try (rewrite map_length, seq_length; reflexivity);
    try (now rewrite repeat_length); try lia.
  intros j Hj H. exfalso. revert H.
  destruct (nth_in_or_default j (repeat false (d + 1)) false) as [I| -> ]; [|discriminate].
  apply repeat_spec in I. rewrite I. discriminate.
Qed.

Lemma ms_sok c M U : sok c (mkI M U (matrix_structure M (cn c) (cd c))).
Proof. intros j Hj. cbn [iS]. now apply ms_le. Qed.

Lemma new_lsafe (fp : fpops F) J n d A u m lg vd : lsafe n d (new_lattice fp J n d A u m lg vd).
Proof.
  unfold lsafe. do 3 (split; [reflexivity|]). split.
  - apply (ms_sok (mkCfg n d u d 4294967295%Z m lg 1 1000000%Z)).
  - apply (fwf_mtab_new fp J n d u m lg).
Qed.

Lemma fwf_reset c (f : fst_ F) : fwf c f -> fwf c (hlll_reset c f).
Proof.
  intros []. split; unfold hlll_reset; setf; auto.
  - now rewrite imap_length.
  - now rewrite map_length.
  - intros j Hj K. exfalso. rewrite nth_imap with (da := false) in K by lia.
    apply Nat.ltb_lt in Hj. rewrite Hj in K. discriminate.
Qed.

Lemma hlll_safe (fp : fpops F) n d fuel delta vb junk L : d <= n -> lsafe n d L ->
  safe (fun t => lsafe n d (snd t) /\ lcfg (snd t) = lcfg L) (hlll fp fuel delta vb junk L).
Proof.
  intros ND (H1 & H2 & H3 & Hs & Hf). unfold hlll.
  eapply safe_bind with (P := gooda (lcfg L)).
  - apply hlll_loop_safe; try lia.
    + apply (fwf_reset _ _ Hf).
    + assumption.
  - intros [[[r s] f] q] [G1 G2]. cbn [safe snd]. unfold lsafe. cbn [lcfg li lf]. tauto.
Qed.

Lemma hlllp_safe (fp : fpops F) n d fuel c501 delta dthr junk L : d <= n -> lsafe n d L ->
  safe (fun t => lsafe n d (snd t) /\ lcfg (snd t) = lcfg L) (hlllp fp fuel c501 delta dthr junk L).
Proof.
  intros ND (H1 & H2 & H3 & Hs & Hf). unfold hlllp.
  eapply safe_bind with (P := gooda (lcfg L)).
  - apply hlllp_loop_safe; try lia.
    + apply (fwf_reset _ _ Hf).
    + assumption.
  - intros [[[r s] f] q] [G1 G2]. cbn [safe snd]. unfold lsafe. cbn [lcfg li lf]. tauto.
Qed.

(** householder() on a well-formed state *)
Lemma householder_safe (fp : fpops F) c B f : cd c <= cn c -> fwf c f -> safe (fwf c) (householder fp c B f).
Proof.
  intros ND W. unfold householder. apply safe_mfold; [assumption|]. clear W f.
  intros kappa f I W. apply in_seq in I. unfold hh_col.
  assert (W1 : fwf c (set_R (setcol_z fp (fR f) kappa (col B kappa) (cn c)) f)).
  { apply fwf_R; [assumption|]. apply setcol_wfm; try lia; apply W. }
  eapply safe_bind with (P := fwf c).
  { apply safe_mfold; [exact W1|]. intros k t I2 Wt. apply in_seq in I2. unfold hh_reflect.
    eapply safe_bind; [apply safe_gcol; try lia; apply Wt|]. intros v Hv; cbn beta in Hv.
    eapply safe_bind; [apply safe_gcol; try lia; apply Wt|]. intros r Hr; cbn beta in Hr.
    eapply safe_bind; [eapply safe_scalarprod; lia|]. intros p _.
    eapply safe_bind; [apply safe_fmasub; try lia; apply Wt|]. intros R' WR. cbn [safe].
    now apply fwf_R. }
  intros f2 W2.
  eapply safe_bind; [apply safe_gR; lia|]. intros w0 _.
  eapply safe_bind; [apply safe_gcol; try lia; apply W2|]. intros rc Hrc; cbn beta in Hrc.
  eapply safe_bind; [eapply safe_norm; lia|]. intros nr _.
  destruct (if fle fp (fzero fp) w0 then _ else _) as [s rkk].
  apply safe_guard; [bool_lia|]. cbn [safe]. apply fwf_R.
  - apply fwf_V; [assumption|]. apply wfm_lupd; [apply W2|]. now rewrite map_length, seq_length.
  - apply wfm_lupd; [apply wfm_mset, W2|]. now rewrite map_length, seq_length.
Qed.

Lemma fwf_setprec' (fp : fpops F) c J (f : fst_ F) : fwf c (set_nmax 0 f) -> fwf c (set_nmax 0 (setprec fp c J f)).
Proof.
  intros []. split; unfold setprec; cbn; auto; try apply mtab_wfm; try (now rewrite map_length, seq_length).
Qed.

Lemma isreduced_safe (fp : fpops F) n d fuel delta junk J1 J2 L : d <= n -> 2 <= d -> lsafe n d L ->
  safe (fun t => lsafe n d (snd t)) (isreduced fp fuel delta junk J1 J2 L).
Proof.
  intros ND D2 (H1 & H2 & H3 & Hs & Hf). unfold isreduced.
  pose proof (fwf_setprec' fp (lcfg L) J1 (lf L) Hf) as W1.
  assert (HH : forall f, householder fp (lcfg L) (iB (li L)) (set_nmax 0 f) =
     match householder fp (lcfg L) (iB (li L)) f with Ok g => Ok (set_nmax 0 g) | UB => UB | NoFuel => NoFuel end).
  { assert (G : forall l f, mfold (hh_col fp (lcfg L) (iB (li L))) l (set_nmax 0 f) =
      match mfold (hh_col fp (lcfg L) (iB (li L))) l f with Ok g => Ok (set_nmax 0 g) | UB => UB | NoFuel => NoFuel end).
    { induction l as [|k l IH]; intros f; cbn [mfold]; [reflexivity|].
      assert (HC : hh_col fp (lcfg L) (iB (li L)) k (set_nmax 0 f) =
        match hh_col fp (lcfg L) (iB (li L)) k f with Ok g => Ok (set_nmax 0 g) | UB => UB | NoFuel => NoFuel end).
      { unfold hh_col.
        assert (HM : forall ks g, mfold (hh_reflect fp (lcfg L) k) ks (set_nmax 0 g) =
          match mfold (hh_reflect fp (lcfg L) k) ks g with Ok g => Ok (set_nmax 0 g) | UB => UB | NoFuel => NoFuel end).
        { induction ks as [|a ks IHk]; intros g; cbn [mfold]; [reflexivity|].
          assert (HR : hh_reflect fp (lcfg L) k a (set_nmax 0 g) =
            match hh_reflect fp (lcfg L) k a g with Ok g => Ok (set_nmax 0 g) | UB => UB | NoFuel => NoFuel end).
          { unfold hh_reflect. setf.
            destruct (gcol _ (fV g) a a); cbn [bind]; auto.
            destruct (gcol _ (fR g) k a); cbn [bind]; auto.
            destruct (scalarprod _ _ _ _); cbn [bind]; auto.
            destruct (fmasub _ _ _ _ _ _ _ _ _); cbn [bind]; auto. }
          rewrite HR. destruct (hh_reflect _ _ _ _ g); cbn [bind]; auto. }
        setf.
        change (set_R (setcol_z fp (fR f) k (col (iB (li L)) k) (cn (lcfg L))) (set_nmax 0 f))
          with (set_nmax 0 (set_R (setcol_z fp (fR f) k (col (iB (li L)) k) (cn (lcfg L))) f)).
        rewrite HM. destruct (mfold _ _ _) as [g| |]; cbn [bind]; auto. setf.
        destruct (gR _ _ _ _ _); cbn [bind]; auto.
        destruct (gcol _ _ _ _); cbn [bind]; auto.
        destruct (fp_norm _ _ _); cbn [bind]; auto.
        destruct (if fle fp (fzero fp) a then _ else _). unfold guard.
        destruct (_ && _)%bool; auto. }
      rewrite HC. destruct (hh_col _ _ _ _ f); cbn [bind]; auto. }
    intros f. apply G. }
  assert (HS : safe (fun g => fwf (lcfg L) (set_nmax 0 g))
                    (householder fp (lcfg L) (iB (li L)) (setprec fp (lcfg L) J1 (lf L)))).
  { pose proof (householder_safe fp (lcfg L) (iB (li L)) _ ltac:(lia) W1) as S.
    rewrite HH in S. destruct (householder _ _ _ _); cbn [safe] in *; auto. }
  eapply safe_bind; [exact HS|]. intros f2 W2. cbn beta in W2.
  eapply safe_bind; [apply safe_gR; lia|]. intros _ _.
  eapply safe_bind; [apply safe_gR; lia|]. intros _ _.
  eapply safe_bind.
  { apply (hlll_safe fp n d); [assumption|]. unfold lsafe. cbn [lcfg li lf]. auto. }
  intros [r L3] [G E]. cbn [snd safe] in *. unfold lsafe in *. cbn [lcfg li lf].
  destruct G as (G1 & G2 & G3 & G4 & G5). rewrite E in *. do 4 (split; [assumption|]).
  now apply fwf_setprec'.
Qed.

Lemma fwf_cfg c c' (f : fst_ F) : cn c = cn c' -> cd c = cd c' -> fwf c f -> fwf c' f.
Proof. intros E1 E2 []. split; rewrite <- ?E1, <- ?E2; auto. Qed.

Lemma exec_safe (fp : fpops F) n d q L : d <= n -> 2 <= d -> lsafe n d L -> safe (lsafe n d) (exec fp q L).
Proof.
  intros ND D2 G. destruct q; cbn [exec].
  - eapply safe_bind; [now apply (hlll_safe fp n d)|]. intros [r L'] [G' _]. exact G'.
  - cbn [safe]. destruct G as (H1 & H2 & H3 & Hs & Hf). unfold lsafe, assign. cbn [lcfg li lf].
    do 3 (split; [assumption|]). split; [apply ms_sok|].
    pose proof (fwf_reset _ _ Hf) as W. destruct W.
    split; unfold hlll_reset; setf; auto.
    + now rewrite map_length.
    + intros j Hj K. exfalso. unfold hlll_reset in *. setf.
      rewrite nth_imap with (da := false) in K by (destruct Hf; setf; lia).
      apply Nat.ltb_lt in Hj. rewrite Hj in K. discriminate.
  - cbn [safe]. destruct G as (H1 & H2 & H3 & Hs & Hf). do 4 (split; [assumption|]).
    eapply fwf_cfg; [| |exact Hf]; reflexivity.
  - cbn [safe]. destruct G as (H1 & H2 & H3 & Hs & Hf). do 4 (split; [assumption|]).
    eapply fwf_cfg; [| |exact Hf]; reflexivity.
  - cbn [safe]. destruct G as (H1 & H2 & H3 & Hs & Hf). unfold shift_assign, lsafe, assign. cbn [lcfg li lf].
    do 3 (split; [assumption|]). split; [apply ms_sok|].
    pose proof (fwf_reset _ _ Hf) as W. destruct W.
    split; unfold hlll_reset; setf; auto.
    + now rewrite map_length.
    + intros j Hj K. exfalso. unfold hlll_reset in *. setf.
      rewrite nth_imap with (da := false) in K by (destruct Hf; setf; lia).
      apply Nat.ltb_lt in Hj. rewrite Hj in K. discriminate.
  - eapply safe_bind; [now apply (isreduced_safe fp' n d)|]. intros [[r st] L'] G'. exact G'.
  - eapply safe_bind; [now apply (hlllp_safe fp n d)|]. intros [r L'] [G' _]. exact G'.
Qed.

Lemma run_safe (fp : fpops F) n d qs L : d <= n -> 2 <= d -> lsafe n d L -> safe (lsafe n d) (run fp qs L).
Proof.
  intros ND D2 G. unfold run. apply safe_mfold; [assumption|]. intros q t _ Gt. now apply exec_safe.
Qed.

End SafeObj.
