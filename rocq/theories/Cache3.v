(** * Simulation of one reduction by the reference *)
From Coq Require Import ZArith Lia List Bool Arith Permutation.
From Verif Require Import Base Spec Mat FP Hlll IntSteps HlllInt Structure Object Safety Fresh Cache Cache2.
Import ListNotations.

(** both computations end the same way, with related values *)
Definition rsim {A B} (Q : A -> B -> Prop) (a : res A) (b : res B) : Prop :=
  match a, b with
  | Ok x, Ok y => Q x y
  | UB, UB => True
  | NoFuel, NoFuel => True
  | _, _ => False
  end.

Lemma rsim_bind {A B A' B'} (Q : A -> B -> Prop) (Q' : A' -> B' -> Prop) a b k k' :
  rsim Q a b -> (forall x y, Q x y -> rsim Q' (k x) (k' y)) -> rsim Q' (bind a k) (bind b k').
Proof. destruct a, b; cbn; auto; contradiction. Qed.

Lemma rsim_mono {A B} (Q Q' : A -> B -> Prop) a b : (forall x y, Q x y -> Q' x y) -> rsim Q a b -> rsim Q' a b.
Proof. destruct a, b; cbn; auto. Qed.

Lemma rsim_guard {A B} (Q : A -> B -> Prop) b a a' : rsim Q a a' -> rsim Q (guard b a) (guard b a').
Proof. destruct b; cbn; auto. Qed.

Lemma rsim_mfold {X A B} (Q : A -> B -> Prop) (f : X -> A -> res A) (g : X -> B -> res B) l : forall a b,
  Q a b -> (forall x a b, In x l -> Q a b -> rsim Q (f x a) (g x b)) -> rsim Q (mfold f l a) (mfold g l b).
Proof.
  induction l as [|x l IH]; intros a b H Hf; cbn [mfold]; auto.
  eapply rsim_bind; [apply Hf; [now left|exact H]|]. intros. apply IH; auto. intros. apply Hf; auto. now right.
Qed.

Ltac tsplit := repeat (split; [solve [reflexivity|eassumption]|]); cbn [fst snd]; eassumption.

Lemma ist_eta s : mkI (iB s) (iU s) (iS s) = s.
Proof. now destruct s. Qed.

Section Pass.
Context {F : Type} (fp : fpops F) (c : cfg).
Notation n := (cn c).
Notation d := (cd c).
Notation fz := (fzero fp).
Notation fwf := (Safety.fwf c).
Notation Sj s j := (nth j (iS s) 0).

(** the entries of R that are ever read: rows below the structure, columns < m *)
Definition agree (St : list nat) (m : nat) (R R' : mat F) : Prop :=
  forall j i, j < m -> i < nth j St 0 -> mget fz R i j = mget fz R' i j.

Definition agreeV (m : nat) (f g : fst_ F) : Prop :=
  forall k i, k < m -> k <= i < n -> Vf fp f i k = Vf fp g i k.

Definition relx (f g : fst_ F) : Prop := (cseysen c < 1)%Z \/ clong c = true \/ fx f = fx g.

(** the inner state (s,f) reached from (s0,f0), and its counterpart *)
Record inner (kappa : nat) (s0 : ist) (f0 g0 : fst_ F) (s : ist) (f g : fst_ F) (dn : bool) : Prop := {
  n_f : f = set_x (fx f) (set_R (fR f) f0);
  n_g : g = set_x (fx g) (set_R (fR g) g0);
  n_wR : wfm n d (fR f); n_wR' : wfm n d (fR g);
  n_ag : agree (iS s0) (S kappa) (fR f) (fR g);
  n_x : relx f g;
  n_S : iS s = iS s0;
  n_wB : wfm n d (iB s);
  n_B : forall j, j <> kappa -> col (iB s) j = col (iB s0) j;
  n_R : forall j, j <> kappa -> col (fR f) j = col (fR f0) j;
  n_no : dn = false -> s = s0 /\ fR f = fR f0 }.

Variables (kappa : nat) (s0 : ist).
Hypothesis G : sgood c s0.
Hypothesis Hk : kappa < d.
Hypothesis ND : d <= n.

Lemma agree_get f g i j : agree (iS s0) (S kappa) (fR f) (fR g) -> j <= kappa -> i <= j ->
  mget fz (fR f) i j = mget fz (fR g) i j.
Proof. intros H Hj Hi. apply H; [lia|]. pose proof (g_gt c s0 G j ltac:(lia)). lia. Qed.

Lemma rsim_gR f g i j : agree (iS s0) (S kappa) (fR f) (fR g) -> j <= kappa -> i <= j ->
  gR fp c (fR f) i j = gR fp c (fR g) i j.
Proof. intros H Hj Hi. unfold gR. now rewrite (agree_get f g) by assumption. Qed.

Lemma colop_agree R R' (op : F -> F -> F) i l : wfm n d R -> wfm n d R' ->
  agree (iS s0) (S kappa) R R' -> i < kappa -> l <= i + 1 ->
  agree (iS s0) (S kappa) (colop fz op 0 l R kappa i) (colop fz op 0 l R' kappa i).
Proof.
  intros W W' A Hi Hl j r Hj Hr.
  pose proof (g_le c s0 G j ltac:(lia)). pose proof (g_gt c s0 G i ltac:(lia)).
  rewrite !(mget_colop fz op n d) by (auto; lia).
  destruct (Nat.eqb_spec j kappa) as [->|N]; cbn [andb Nat.leb].
  - destruct (Nat.ltb_spec r (0 + l)).
    + rewrite (A kappa r), (A i r) by lia. reflexivity.
    + apply A; lia.
  - apply A; lia.
Qed.

Lemma col_colop_neq {T} (df : T) op b l (M : mat T) j i q : q <> j -> col (colop df op b l M j i) q = col M q.
Proof. intros. unfold colop. now apply col_lupd_neq. Qed.

(** *** size_update *)
Definition in3 f0 g0 (x : ist * fst_ F * bool) (y : ist * fst_ F * bool) : Prop :=
  fst (fst x) = fst (fst y) /\ snd x = snd y /\ inner kappa s0 f0 g0 (fst (fst x)) (snd (fst x)) (snd (fst y)) (snd x).

Lemma relx_set x f g : relx (set_x x f) (set_x x g).
Proof. right. right. reflexivity. Qed.

Lemma size_update_step_sim f0 g0 i x y : i < kappa -> in3 f0 g0 x y ->
  rsim (in3 f0 g0) (size_update_step fp c kappa i x) (size_update_step fp c kappa i y).
Proof.
  destruct x as [[s f] b], y as [[s' g] b']. intros Hi (E1 & E2 & I). cbn [fst snd] in *. subst s' b'.
  destruct I as [If Ig IW IW' IA Ix IS IB IBc IRc Ino].
  unfold size_update_step.
  rewrite (rsim_gR f g i kappa) by (auto; lia). rewrite (rsim_gR f g i i) by (auto; lia).
  destruct (gR fp c (fR g) i kappa) as [rik| |]; cbn [bind rsim]; auto.
  destruct (gR fp c (fR g) i i) as [rii| |]; cbn [bind rsim]; auto.
  set (x := frnd fp (fdiv fp rik rii)). setf.
  destruct (fnz fp x).
  - destruct (fgse fp x) as [lx expo]. apply rsim_guard. cbn [rsim]. unfold in3. cbn [fst snd].
    split; [reflexivity|]. split; [reflexivity|]. split; setf.
    + rewrite If. reflexivity.
    + rewrite Ig. reflexivity.
    + now apply wfm_colop.
    + now apply wfm_colop.
    + apply colop_agree; auto; lia.
    + apply relx_set.
    + cbn [iS]. assumption.
    + cbn [iB]. now apply wfm_colop.
    + cbn [iB]. intros j Hj. rewrite col_colop_neq by assumption. now apply IBc.
    + intros j Hj. rewrite col_colop_neq by assumption. now apply IRc.
    + discriminate.
  - cbn [rsim]. unfold in3. cbn [fst snd]. split; [reflexivity|]. split; [reflexivity|]. split; setf; auto.
    + rewrite If. reflexivity.
    + rewrite Ig. reflexivity.
    + apply relx_set.
Qed.

(** *** size_update_R and psize_update_B *)
Definition in3R f0 g0 (done_is : list nat) (x y : fst_ F * list F * bool) : Prop :=
  snd (fst x) = snd (fst y) /\ snd x = snd y /\ length (snd (fst x)) = n /\
  (snd x = false -> forall i, In i done_is -> fnz fp (nth i (snd (fst x)) fz) = false) /\
  inner kappa s0 f0 g0 s0 (fst (fst x)) (fst (fst y)) (snd x).

Lemma size_update_R_step_sim f0 g0 dl i x y : i < kappa -> ~ In i dl -> in3R f0 g0 dl x y ->
  rsim (in3R f0 g0 (i :: dl)) (size_update_R_step fp c kappa i x) (size_update_R_step fp c kappa i y).
Proof.
  destruct x as [[f vx] b], y as [[g vx'] b']. intros Hi Hni (E1 & E2 & L & Z & I). cbn [fst snd] in *. subst vx' b'.
  destruct I as [If Ig IW IW' IA Ix IS IB IBc IRc Ino].
  unfold size_update_R_step.
  rewrite (rsim_gR f g i kappa) by (auto; lia). rewrite (rsim_gR f g i i) by (auto; lia).
  destruct (gR fp c (fR g) i kappa) as [rik| |]; cbn [bind rsim]; auto.
  destruct (gR fp c (fR g) i i) as [rii| |]; cbn [bind rsim]; auto.
  set (x := frnd fp (fdiv fp rik rii)). setf.
  destruct (fnz fp x) eqn:Nx.
  - destruct (fgse fp x) as [lx expo]. cbn [rsim]. unfold in3R. cbn [fst snd].
    split; [reflexivity|]. split; [reflexivity|]. split; [now rewrite lupd_length|]. split; [discriminate|]. split; setf; auto.
    + rewrite If. reflexivity.
    + rewrite Ig. reflexivity.
    + now apply wfm_colop.
    + now apply wfm_colop.
    + apply colop_agree; auto; lia.
    + apply relx_set.
    + intros j Hj. rewrite col_colop_neq by assumption. now apply IRc.
    + discriminate.
  - cbn [rsim]. unfold in3R. cbn [fst snd]. split; [reflexivity|]. split; [reflexivity|].
    split; [now rewrite lupd_length|]. split.
    { intros Hb q [<-|Hq].
      - rewrite nth_lupd_eq by lia. exact Nx.
      - rewrite nth_lupd_neq by (intros ->; contradiction). now apply Z. }
    split; setf; auto.
    + rewrite If. reflexivity.
    + rewrite Ig. reflexivity.
    + apply relx_set.
Qed.

Lemma size_update_R_sim f0 g0 l : forall dl x y, NoDup (l ++ dl) -> (forall i, In i l -> i < kappa) -> in3R f0 g0 dl x y ->
  rsim (in3R f0 g0 (rev l ++ dl)) (mfold (size_update_R_step fp c kappa) l x) (mfold (size_update_R_step fp c kappa) l y).
Proof.
  induction l as [|i l IH]; intros dl x y ND' Hl H; cbn [mfold rev app]; auto.
  cbn [app] in ND'. apply NoDup_cons_iff in ND' as [N1 N2].
  eapply rsim_bind; [apply (size_update_R_step_sim f0 g0 dl)|].
  - apply Hl. now left.
  - intros X. apply N1. apply in_or_app. now right.
  - exact H.
  - intros x' y' H'. rewrite <- app_assoc. apply IH; auto.
    + apply (Permutation.Permutation_NoDup (Permutation.Permutation_middle l dl i)). now constructor.
    + intros. apply Hl. now right.
Qed.

Lemma NoDup_down hi lo : NoDup (down hi lo).
Proof. unfold down. apply NoDup_rev. apply seq_NoDup. Qed.

(** columns other than kappa are not touched by the threads *)
Lemma thread_col kappa' vx ibeg nloc is : forall B j, j <> kappa' ->
  col (fold_left (fun B i => psize_thread_step fp c kappa' vx ibeg nloc i B) is B) j = col B j.
Proof.
  induction is as [|i is IH]; intros B j Hj; cbn [fold_left]; auto.
  rewrite IH by assumption. rewrite psize_thread_step_eq. destruct (fnz fp _); auto. now apply col_colop_neq.
Qed.
Lemma threads_col kappa' from vx nmax Sn ls : forall B j, j <> kappa' ->
  col (fold_left (fun B l => psize_thread fp c kappa' from vx nmax Sn l B) ls B) j = col B j.
Proof.
  induction ls as [|l ls IH]; intros B j Hj; cbn [fold_left]; auto.
  rewrite IH by assumption. now apply thread_col.
Qed.
Lemma threads_idle kappa' from vx nmax Sn ls : (forall i, In i (down from 0) -> fnz fp (nth i vx fz) = false) ->
  forall B, fold_left (fun B l => psize_thread fp c kappa' from vx nmax Sn l B) ls B = B.
Proof.
  intros H. assert (X : forall ibeg nloc is B, (forall i, In i is -> fnz fp (nth i vx fz) = false) ->
    fold_left (fun B i => psize_thread_step fp c kappa' vx ibeg nloc i B) is B = B).
  { induction is as [|i is IH]; intros B Hi; cbn [fold_left]; auto.
    rewrite psize_thread_step_eq, (Hi i (or_introl eq_refl)). apply IH. intros; apply Hi; now right. }
  induction ls as [|l ls IH]; intros B; cbn [fold_left]; auto.
  unfold psize_thread at 2. rewrite X by assumption. apply IH.
Qed.

(** *** hs_pass *)
Definition in4 f0 g0 (x y : ist * fst_ F * list F * bool) : Prop :=
  snd (fst x) = snd (fst y) /\ snd x = snd y /\ length (snd (fst x)) = n /\
  fst (fst (fst x)) = fst (fst (fst y)) /\
  inner kappa s0 f0 g0 (fst (fst (fst x))) (snd (fst (fst x))) (snd (fst (fst y))) (snd x).

Lemma hs_pass_sim f g vx start : start < kappa -> wfm n d (fR f) -> wfm n d (fR g) ->
  agree (iS s0) (S kappa) (fR f) (fR g) -> relx f g -> length vx = n ->
  rsim (in4 f g) (hs_pass fp c s0 f vx kappa start) (hs_pass fp c s0 g vx kappa start).
Proof.
  intros Hs W W' A X L. unfold hs_pass.
  assert (I0 : inner kappa s0 f g s0 f g false).
  { split; auto; try (now destruct f); try (now destruct g). apply bok_wfm. apply G. }
  destruct (_ || _)%bool.
  - eapply rsim_bind with (Q := in3 f g).
    + unfold size_update. apply rsim_mfold.
      * tsplit.
      * intros i x y Hi H. apply in_down in Hi. apply size_update_step_sim; auto. lia.
    + intros [[s1 f1] b] [[s1' g1] b'] (E1 & E2 & I). cbn [fst snd] in *. subst.
      cbn [rsim]. tsplit.
  - eapply rsim_bind with (Q := in3R f g (rev (down start 0))).
    + unfold size_update_R. rewrite <- (app_nil_r (rev (down start 0))). apply size_update_R_sim.
      * rewrite app_nil_r. apply NoDup_down.
      * intros i Hi. apply in_down in Hi. lia.
      * split; [reflexivity|]. split; [reflexivity|]. split; [exact L|]. split; [intros _ i []|exact I0].
    + intros [[f1 vx1] b] [[g1 vx1'] b'] (E1 & E2 & L1 & Z1 & I). cbn [fst snd] in *. subst vx1' b'.
      unfold psize_update_B. unfold guard. destruct (_ && _)%bool; cbn [bind rsim]; auto.
      split; [reflexivity|]. split; [reflexivity|]. split; [exact L1|]. split; [reflexivity|]. cbn [fst snd].
      destruct I as [If Ig IW IW' IA Ix IS IB IBc IRc Ino]. split; setf; auto; cbn [iS iB].
      * now apply threads_wfm.
      * intros j Hj. rewrite threads_col by assumption. reflexivity.
      * intros Hb. split; [|now apply Ino].
        rewrite threads_idle; [apply ist_eta|].
        intros i Hi. apply Z1; [assumption|]. rewrite <- in_rev. exact Hi.
Qed.

(** *** seysen_pass *)
Definition in4s f0 g0 (x y : ist * fst_ F * list F * bool) : Prop :=
  snd (fst x) = snd (fst y) /\ snd x = snd y /\ fst (fst (fst x)) = fst (fst (fst y)) /\
  inner kappa s0 f0 g0 (fst (fst (fst x))) (snd (fst (fst x))) (snd (fst (fst y))) (snd x).

Definition in5 f0 g0 (x y : ist * fst_ F * list F * list F * bool) : Prop :=
  snd (fst x) = snd (fst y) /\ snd (fst (fst x)) = snd (fst (fst y)) /\ snd x = snd y /\
  fst (fst (fst (fst x))) = fst (fst (fst (fst y))) /\
  inner kappa s0 f0 g0 (fst (fst (fst (fst x)))) (snd (fst (fst (fst x)))) (snd (fst (fst (fst y)))) (snd x).

Lemma bop_long lx expo xz xz' : clong c = true -> bop c lx expo xz = bop c lx expo xz'.
Proof. intros H. unfold bop. rewrite H. reflexivity. Qed.

Lemma inner_dn f0 g0 s f g b b' : (b' = false -> b = false) ->
  inner kappa s0 f0 g0 s f g b -> inner kappa s0 f0 g0 s f g b'.
Proof. intros H []. split; auto. Qed.

Lemma seysen_update_step_sim f0 g0 restdim i x y b0 : (cseysen c <? 1)%Z = false -> restdim <= i -> i < kappa ->
  (let orb4 := fun x : ist * fst_ F * list F * bool => (fst x, (b0 || snd x)%bool) in
   in4s f0 g0 (orb4 x) (orb4 y)) -> snd x = snd y ->
  rsim (fun x y => (let orb4 := fun x : ist * fst_ F * list F * bool => (fst x, (b0 || snd x)%bool) in
     in4s f0 g0 (orb4 x) (orb4 y)) /\ snd x = snd y)
    (seysen_update_step fp c kappa restdim i x) (seysen_update_step fp c kappa restdim i y).
Proof.
  destruct x as [[[s f] vx] b], y as [[[s' g] vx'] b']. intros Sy Hr Hi (E1 & E2 & E3 & I) Eb. cbn [fst snd] in *. subst s' b' vx'.
  destruct I as [If Ig IW IW' IA Ix IS IB IBc IRc Ino].
  unfold seysen_update_step. set (x := frnd fp (nth i vx fz)).
  destruct (fnz fp x).
  - destruct (fgse fp x) as [lx expo].
    assert (EX : bop c lx expo (fset_f fp (fx f)) = bop c lx expo (fset_f fp (fx g))).
    { destruct Ix as [Ix|[Ix|Ix]].
      - apply Z.ltb_ge in Sy. lia.
      - now apply bop_long.
      - now rewrite Ix. }
    rewrite EX.
    apply rsim_guard. cbn [rsim]. unfold in4s. cbn [fst snd].
    split; [|reflexivity]. split; [reflexivity|]. split; [reflexivity|]. split; [reflexivity|]. split; setf.
    + rewrite If. reflexivity.
    + rewrite Ig. reflexivity.
    + now apply wfm_colop.
    + now apply wfm_colop.
    + apply colop_agree; auto; lia.
    + exact Ix.
    + cbn [iS]. assumption.
    + cbn [iB]. now apply wfm_colop.
    + cbn [iB]. intros j Hj. rewrite col_colop_neq by assumption. now apply IBc.
    + intros j Hj. rewrite col_colop_neq by assumption. now apply IRc.
    + rewrite orb_true_r. discriminate.
  - cbn [rsim]. split; [|reflexivity]. split; [reflexivity|]. split; [reflexivity|]. split; [reflexivity|]. cbn [fst snd]. split; auto.
Qed.

Lemma coefs_sim R R' restdim i x : agree (iS s0) (S kappa) R R' -> restdim <= i -> i < kappa ->
  seysen_coefs_step fp c R restdim i x = seysen_coefs_step fp c R' restdim i x.
Proof.
  intros A Hr Hi. destruct x as [vx tmp]. unfold seysen_coefs_step, gR.
  pose proof (g_gt c s0 G i ltac:(lia)).
  rewrite (A i i) by lia.
  destruct (guard _ _) as [rii| |]; cbn [bind]; auto. f_equal. f_equal. f_equal.
  apply fold_left_ext_in. intros t k Hkk. apply in_seq in Hkk. rewrite (A i k) by lia. reflexivity.
Qed.

Lemma mfold_ext_in {X A} (f g : X -> A -> res A) l : forall a, (forall x a, In x l -> f x a = g x a) -> mfold f l a = mfold g l a.
Proof.
  induction l as [|x l IH]; intros a H; cbn [mfold]; auto. rewrite H by (now left).
  destruct (g x a); cbn [bind]; auto. apply IH. intros; apply H; now right.
Qed.

Lemma seysen_block_sim f0 g0 dec bdim x y : (cseysen c <? 1)%Z = false -> dec + bdim <= kappa -> in5 f0 g0 x y ->
  rsim (in5 f0 g0) (seysen_block fp c kappa dec bdim x) (seysen_block fp c kappa dec bdim y).
Proof.
  destruct x as [[[[s f] vx] tmp] b], y as [[[[s' g] vx'] tmp'] b']. intros Sy Hb (E1 & E2 & E3 & E4 & I).
  cbn [fst snd] in *. subst s' vx' tmp' b'.
  assert (Hin : forall i, In i (block_rows kappa dec bdim) -> kappa - dec - bdim <= i < kappa).
  { intros i Hi. unfold block_rows in Hi. apply in_rev in Hi. apply in_seq in Hi. lia. }
  unfold seysen_block.
  rewrite (mfold_ext_in (fun i t => let* r := gR fp c (fR f) i kappa in Ok (lupd t i r))
             (fun i t => let* r := gR fp c (fR g) i kappa in Ok (lupd t i r))).
  2:{ intros i t Hi. apply Hin in Hi. rewrite (rsim_gR f g i kappa); auto; try lia. apply I. }
  destruct (mfold _ _ tmp) as [tmp1| |]; cbn [bind rsim]; auto.
  rewrite (mfold_ext_in (seysen_coefs_step fp c (fR f) (kappa - dec - bdim)) (seysen_coefs_step fp c (fR g) (kappa - dec - bdim))).
  2:{ intros i t Hi. apply Hin in Hi. apply coefs_sim; try lia. apply I. }
  destruct (mfold _ _ (vx, tmp1)) as [[vx1 tmp2]| |]; cbn [bind rsim]; auto.
  destruct (_ || _)%bool eqn:Q.
  - eapply rsim_bind.
    + apply (rsim_mfold (fun x y => (let orb4 := fun x : ist * fst_ F * list F * bool => (fst x, (b || snd x)%bool) in
          in4s f0 g0 (orb4 x) (orb4 y)) /\ snd x = snd y)).
      * split; [|reflexivity]. split; [reflexivity|]. split; [reflexivity|]. split; [reflexivity|]. cbn [fst snd].
        rewrite orb_false_r. exact I.
      * intros i x y Hi [H1 H2]. apply Hin in Hi. apply seysen_update_step_sim; auto; lia.
    + intros [[[s1 f1] vx2] sd] [[[s1' g1] vx2'] sd'] [(H1 & H2 & H3 & H4) H5]. cbn [fst snd] in *. subst.
      cbn [rsim]. tsplit.
  - cbn [rsim]. tsplit.
Qed.

Lemma seysen_pass_sim f g vx tmp : (cseysen c <? 1)%Z = false -> wfm n d (fR f) -> wfm n d (fR g) ->
  agree (iS s0) (S kappa) (fR f) (fR g) -> relx f g ->
  rsim (in5 f g) (seysen_pass fp c s0 f vx tmp kappa) (seysen_pass fp c s0 g vx tmp kappa).
Proof.
  intros Sy W W' A X. unfold seysen_pass. apply rsim_mfold.
  - split; [reflexivity|]. split; [reflexivity|]. split; [reflexivity|]. split; [reflexivity|]. cbn [fst snd].
    split; auto; try (now destruct f); try (now destruct g). apply bok_wfm. apply G.
  - intros [dec bd] x y Hin H. cbn [fst snd]. apply seysen_block_sim; auto.
    change (fst (dec, bd) + snd (dec, bd) <= kappa).
    apply (seysen_blocks_le (kappa + 1) 0). cbn [Nat.pow]. rewrite Nat.mod_1_r. exact Hin.
Qed.

End Pass.
