(** * The staged drivers and the lattice *)
From Coq Require Import ZArith Lia List Bool Arith.
From Verif Require Import Base Spec Mat FP Hlll Hlll2 IntSteps HlllInt Structure Object MachInt Slll SlllInt SlllPad Wrap.
From Verif Require MatOpsFacts.
Import ListNotations.
Local Open Scope Z_scope.

(** the lattice of the columns of B is contained in that of A *)
Definition sublattice (n d : nat) (A B : zmat) : Prop := forall v, in_lattice n d B v -> in_lattice n d A v.

Lemma same_sub n d A B : same_lattice n d A B -> sublattice n d A B.
Proof. intros H v. apply H. Qed.
Lemma sub_trans n d A B C : sublattice n d A B -> sublattice n d B C -> sublattice n d A C.
Proof. intros H1 H2 v Hv. auto. Qed.
Lemma same_iff_sub n d A B : same_lattice n d A B <-> sublattice n d A B /\ sublattice n d B A.
Proof. unfold same_lattice, sublattice. split; [intros H; split; intros v; apply H|intros [H1 H2] v; split; auto]. Qed.

(** concatenation: C in the place of the first k columns of A *)
Definition cat (k : nat) (C A : zmat) : zmat := fun i j => if (j <? k)%nat then C i j else A i j.

Lemma sumZ_parts k d f : (k <= d)%nat -> sumZ d f = sumZ k f + sumZ (d - k) (fun j => f (k + j)%nat).
Proof. intros H. replace d with (k + (d - k))%nat at 1 by lia. apply sumZ_split. Qed.

Lemma sub_cat n k d A C : (k <= d)%nat -> sublattice n k A C -> sublattice n d A (cat k C A).
Proof.
  intros Hk H v (c & Hc).
  destruct (H (fun i => sumZ k (fun j => C i j * c j))) as (e & He). { exists c. reflexivity. }
  exists (fun j => if (j <? k)%nat then e j else c j). intros i Hi. rewrite (Hc i Hi).
  rewrite !(sumZ_parts k d) by assumption. f_equal.
  - rewrite (sumZ_ext k _ (fun j => C i j * c j)).
    + cbn beta in He. rewrite (He i Hi). apply sumZ_ext. intros j Hj. apply Nat.ltb_lt in Hj. now rewrite Hj.
    + intros j Hj. unfold cat. apply Nat.ltb_lt in Hj. now rewrite Hj.
  - apply sumZ_ext. intros j Hj. unfold cat. replace (k + j <? k)%nat with false by (symmetry; apply Nat.ltb_ge; lia). reflexivity.
Qed.

Lemma cat_sub n k d A C : (k <= d)%nat -> sublattice n k C A -> sublattice n d (cat k C A) A.
Proof.
  intros Hk H v (c & Hc).
  destruct (H (fun i => sumZ k (fun j => A i j * c j))) as (e & He). { exists c. reflexivity. }
  exists (fun j => if (j <? k)%nat then e j else c j). intros i Hi. rewrite (Hc i Hi).
  rewrite !(sumZ_parts k d) by assumption. f_equal.
  - cbn beta in He. rewrite (He i Hi). apply sumZ_ext. intros j Hj. unfold cat. apply Nat.ltb_lt in Hj. now rewrite Hj.
  - apply sumZ_ext. intros j Hj. unfold cat. replace (k + j <? k)%nat with false by (symmetry; apply Nat.ltb_ge; lia). reflexivity.
Qed.

Lemma same_cat n k d A C : (k <= d)%nat -> same_lattice n k A C -> same_lattice n d A (cat k C A).
Proof. intros Hk H. apply same_iff_sub in H as [H1 H2]. apply same_iff_sub. split; [now apply sub_cat|now apply cat_sub]. Qed.

Lemma append_fn n k d C A : meq n d (fn (append n k d C A)) (cat k (fn C) (fn A)).
Proof. apply fn_mtab. Qed.
Lemma firstcols_fn n k A : meq n k (fn (firstcols n k A)) (fn A).
Proof. apply fn_mtab. Qed.

(** ** one hlll *)
Lemma red_lattice {F} (fp : fpops F) fuel delta junk J n d A m C : expo_nonneg fp ->
  red fp fuel delta junk J n d A m = Ok C -> same_lattice n d (fn A) (fn C).
Proof.
  intros EX H. unfold red in H. binv H. destruct a as [r L]. apply Okinj in H. subst C.
  change (fn A) with (current (fn A) [CallHlll fuel delta true junk]).
  apply (run_lattice fp EX J n d A false m true 0 [CallHlll fuel delta true junk] L).
  - intros fp' f0 d0 j0 J1 J2 [E|[]]; discriminate.
  - cbn [run mfold exec]. unfold run. cbn [mfold exec]. rewrite Ha. reflexivity.
Qed.

Lemma red_cols {F} (fp : fpops F) fuel delta junk J n d A m C : expo_nonneg fp ->
  red fp fuel delta junk J n d A m = Ok C -> wfm n d C.
Proof.
  intros EX H. unfold red in H. binv H. destruct a as [r L]. apply Okinj in H. subst C.
  apply hlll_inv in Ha as (E & _); [|assumption|apply mtab_wfm]. unfold getbase. rewrite E. apply mtab_wfm.
Qed.

Section Staged.
Context {F G : Type} (fp : fpops F) (gp : fpops G).
Hypothesis EX : expo_nonneg fp.
Hypothesis EXG : expo_nonneg gp.
Variables (W : list nat -> junk_t (F := F)) (WG : list nat -> junk_t (F := G)).

Lemma stage_same n k d A C C' : (k <= d)%nat -> same_lattice n k (fn (firstcols n k A)) (fn C) ->
  same_lattice n d (fn (append n k d C A)) (fn C') -> same_lattice n d (fn A) (fn C').
Proof.
  intros Hk H1 H2. eapply same_lattice_trans; [|exact H2]. eapply same_lattice_trans; [|apply same_lattice_ext, meq_sym, append_fn].
  apply same_cat; [exact Hk|]. eapply same_lattice_trans; [|exact H1]. apply same_lattice_ext, meq_sym, firstcols_fn.
Qed.

Lemma firstcols_append n k k2 d C A : (k <= k2 <= d)%nat ->
  meq n k2 (fn (append n k k2 C (firstcols n k2 A))) (fn (append n k k2 C A)).
Proof.
  intros H i j Hi Hj. rewrite !append_fn by assumption. unfold cat. destruct (j <? k)%nat; [reflexivity|]. now apply firstcols_fn.
Qed.

Lemma hlll_stages_lattice fuel delta junk deltaG junkG d1 d2 n d A C : (d1 <= d2)%nat ->
  hlll_stages fp gp W WG fuel delta junk deltaG junkG d1 d2 n d A = Ok C -> same_lattice n d (fn A) (fn C).
Proof using EX EXG.
  intros D12 H. unfold hlll_stages in H. destruct (Nat.leb_spec d d1) as [L1|L1].
  { eapply same_lattice_trans; [|eapply red_lattice; [exact EX|exact H]]. apply same_lattice_ext, meq_sym, fn_mtab. }
  destruct (Nat.leb_spec d d2) as [L2|L2].
  - binv H. apply (stage_same n d1 d A a C); [lia| |].
    + eapply (red_lattice fp); [exact EX|exact Ha].
    + eapply (red_lattice fp); [exact EX|exact H].
  - binv H. binv H. apply (stage_same n d2 d A a0 C); [lia| |].
    + apply red_lattice in Ha0; [|exact EX]. apply (stage_same n d1 d2 _ a a0); [lia| |].
      * eapply same_lattice_trans; [|eapply red_lattice; [exact EX|exact Ha]].
        apply same_lattice_ext. intros i j Hi Hj. rewrite !firstcols_fn by lia. reflexivity.
      * eapply same_lattice_trans; [|exact Ha0]. apply same_lattice_ext. apply firstcols_append with (d := d). lia.
    + eapply (red_lattice gp); [exact EXG|exact H].
Qed.

Lemma hlll_wrapper_lattice cin cout fuel delta junk deltaG junkG d1 d2 n d A C : (d1 <= d2)%nat ->
  hlll_wrapper fp gp W WG cin cout fuel delta junk deltaG junkG d1 d2 n d A = Ok C ->
  exists C', hlll_stages fp gp W WG fuel delta junk deltaG junkG d1 d2 n d (mtab n d (fun i j => cin (fn A i j))) = Ok C' /\
    meq n d (fn C) (fun i j => cout (fn C' i j)) /\ same_lattice n d (fun i j => cin (fn A i j)) (fn C').
Proof using EX EXG.
  intros D12 H. unfold hlll_wrapper in H. binv H. apply Okinj in H. subst C. exists a. split; [exact Ha|]. split; [apply fn_mtab|].
  eapply same_lattice_trans; [|eapply hlll_stages_lattice; [exact D12|exact Ha]]. apply same_lattice_ext, meq_sym, fn_mtab.
Qed.
End Staged.

(** ** segment reductions *)
Section Segment.
Context {F : Type} (fp : fpops F) (f0001 f501 fgap f99 : F) (fmul2 : F -> Z -> F).
Hypothesis EX : expo_nonneg fp.
Variables (W : list nat -> junk_t (F := F)) (Wb : list nat -> nat -> nat -> junk_t (F := F)).
Variables (fuel : nat) (delta junk : F) (Sg : nat) (method : Z).
Notation seg := (seg fp f0001 f501 fgap fmul2 W Wb fuel delta junk Sg method).
Notation gapw := (slll_wrap_gap fp f0001 f501 fgap f99 fmul2 W Wb fuel delta junk Sg method).
Notation wstep := (wrap_step fp f0001 f501 fgap f99 fmul2 W Wb fuel delta junk Sg method).
Notation wrapf := (slll_wrap fp f0001 f501 fgap f99 fmul2 W Wb fuel delta junk Sg method).

Lemma seg_sub p n k B g C : seg p n k B = Ok (g, C) -> sublattice n k (fn B) (fn C).
Proof using EX.
  intros H. unfold Wrap.seg in H. binv H. binv H. destruct a0 as [g' L]. apply Okinj in H. injection H as -> <-.
  destruct (slattice_padded fp f0001 f501 fgap fmul2 EX (W p) n k B Sg false method true 0 a [SHlll fuel delta junk (Wb p) Sg 1000000] L Ha)
    as (V & UV & EV & E1 & E2 & _).
  { unfold srun. cbn [mfold sexec]. rewrite Ha0. reflexivity. }
  intros v (c & Hc). exists (fun l => sumZ k (fun j => V l j * c j)). intros i Hi. rewrite (Hc i Hi).
  transitivity (sumZ k (fun j => mmul k (fn B) V i j * c j)).
  - apply sumZ_ext. intros j Hj. f_equal. rewrite sl_getbase_fn by (rewrite ?E1, ?E2; assumption).
    rewrite EV by lia. now apply padded_mul_top.
  - unfold mmul. rewrite (sumZ_ext k _ (fun j => sumZ k (fun l => fn B i l * V l j * c j))).
    + rewrite sumZ_swap. apply sumZ_ext. intros l Hl. rewrite <- sumZ_mul_l. apply sumZ_ext. intros; ring.
    + intros j Hj. rewrite <- sumZ_mul_r. reflexivity.
Qed.

Lemma seg_same p n k B g C : seg p n k B = Ok (g, C) -> (k mod (2 * Sg) = 0)%nat -> same_lattice n k (fn B) (fn C).
Proof using EX.
  intros H D. unfold Wrap.seg in H. binv H. binv H. destruct a0 as [g' L]. apply Okinj in H. injection H as -> <-.
  apply (slattice_lattice fp f0001 f501 fgap fmul2 EX (W p) n k B Sg false method true 0 a [SHlll fuel delta junk (Wb p) Sg 1000000] L Ha).
  - unfold srun. cbn [mfold sexec]. rewrite Ha0. reflexivity.
  - now left.
Qed.

Lemma gap_loop_bound c fu dorig is s f g s' f' : sl_gap_loop fp f0001 f501 fgap c fu dorig is s f = Ok (g, s', f') ->
  g = 0 \/ (3 <= g < Z.of_nat dorig).
Proof.
  revert s f. induction is as [|i is IH]; intros s f H; cbn [sl_gap_loop] in H.
  - apply Okinj in H. injection H as <- _ _. now left.
  - binv H. destruct a as [s1 f1]. binv H. destruct ((2 <=? i)%nat && (i <? dorig - 1)%nat) eqn:E.
    + binv H. binv H. destruct (fcmp1 _ _ _).
      * apply Okinj in H. injection H as <- _ _. right. apply andb_true_iff in E as [E1 E2]. apply Nat.leb_le in E1. apply Nat.ltb_lt in E2. lia.
      * eapply IH; exact H.
    + eapply IH; exact H.
Qed.

Lemma half_bound c fu dl jk Jb lov S0 dorig odd af s f sw q gs ts s' f' sw' q' :
  sl_half fp f0001 f501 fgap fmul2 c fu dl jk Jb lov S0 dorig odd af s f sw q = Ok (gs, ts, s', f', sw', q') ->
  gs = 0 \/ (3 <= gs < Z.of_nat dorig).
Proof.
  intros H. unfold sl_half in H. binv H. binv H. destruct a0 as [[[U sw1] q1] t]. binv H. binv H. destruct a1 as [[g s1] f1].
  unfold sl_reduce_gap in Ha2. binv Ha2. binv Ha2. apply gap_loop_bound in Ha2.
  destruct (2 <=? g).
  - apply Okinj in H. injection H as <- _ _ _ _ _. exact Ha2.
  - binv H. apply Okinj in H. injection H as <- _ _ _ _ _. exact Ha2.
Qed.

Lemma sl_loop_bound c fu dl jk Jb lov S0 dorig af s f sw q gs s' f' sw' q' :
  sl_loop fp f0001 f501 fgap fmul2 c fu dl jk Jb lov S0 dorig af s f sw q = Ok (gs, s', f', sw', q') ->
  gs = 0 \/ (3 <= gs < Z.of_nat dorig).
Proof.
  revert s f sw q. induction fu as [|fu IH]; intros s f sw q H; cbn [sl_loop] in H; [discriminate|].
  binv H. destruct a as [[[[[g1 t1] s1] f1] sw1] q1]. apply half_bound in Ha. destruct (2 <=? g1).
  { apply Okinj in H. injection H as <- _ _ _ _. exact Ha. }
  binv H. destruct a as [[[[[g2 t2] s2] f2] sw2] q2]. apply half_bound in Ha0. destruct (2 <=? g2).
  { apply Okinj in H. injection H as <- _ _ _ _. exact Ha0. }
  destruct (_ && _)%bool.
  - apply Okinj in H. injection H as <- _ _ _ _. now left.
  - eapply IH; exact H.
Qed.

Lemma seg_gap p n k B g C : seg p n k B = Ok (g, C) -> g = 0 \/ (3 <= g < Z.of_nat k).
Proof.
  intros H. unfold Wrap.seg in H. binv H. binv H. destruct a0 as [g' L]. apply Okinj in H. injection H as -> _.
  unfold slll in Ha0. binv Ha0. binv Ha0. binv Ha0. binv Ha0. destruct a2 as [[[[r s] f] sw] q1]. apply Okinj in Ha0. injection Ha0 as <- _.
  apply sl_loop_bound in Ha3. unfold new_slattice in Ha. binv Ha. apply Okinj in Ha. subst a. exact Ha3.
Qed.

Lemma gapw_S depth p n d A gpos : gapw (S depth) p n d A gpos =
  guard (gpos <=? d)%nat
      (let* (g, B1) := seg (0%nat :: p) n gpos (firstcols n gpos A) in
       let* B2 := if (2 <=? g) then gapw depth (1%nat :: p) n gpos B1 (Z.to_nat g) else Ok B1 in
       red fp fuel f99 junk (W (2%nat :: p)) n d (append n gpos d B2 A) method).
Proof. reflexivity. Qed.

(** the recursion is bounded: gap_status < gap_position at each level *)
Lemma gap_depth depth : forall p n d A gpos, (gpos <= depth)%nat -> gapw (S depth) p n d A gpos = gapw (S (S depth)) p n d A gpos.
Proof.
  induction depth as [|depth IH]; intros p n d A gpos Hg; rewrite (gapw_S (S _)), gapw_S; unfold guard;
    (destruct (gpos <=? d)%nat; [|reflexivity]);
    (destruct (seg (0%nat :: p) n gpos (firstcols n gpos A)) as [[g B1]| |] eqn:E; try reflexivity); cbn [bind];
    apply seg_gap in E.
  - replace (2 <=? g) with false by (symmetry; apply Z.leb_gt; lia). reflexivity.
  - destruct (Z.leb_spec 2 g); [|reflexivity].
    rewrite <- (IH (1%nat :: p) n gpos B1 (Z.to_nat g)) by lia. reflexivity.
Qed.

Lemma gap_sub depth : forall p n d A gpos C, gapw depth p n d A gpos = Ok C -> sublattice n d (fn A) (fn C).
Proof using EX.
  induction depth as [|depth IH]; intros p n d A gpos C H; cbn [slll_wrap_gap] in H; [discriminate|].
  binv H. apply Nat.leb_le in Hg. binv H. destruct a as [g B1]. binv H. rename a into B2.
  eapply sub_trans; [|apply same_sub; eapply red_lattice; [exact EX|exact H]].
  eapply sub_trans; [apply (sub_cat n gpos d (fn A) (fn B2) Hg)|].
  - eapply sub_trans; [apply same_sub, same_lattice_ext, meq_sym, firstcols_fn|].
    eapply sub_trans; [eapply seg_sub; exact Ha|].
    destruct (2 <=? g); [eapply IH; exact Ha0|apply Okinj in Ha0; subst; intros v; auto].
  - apply same_sub, same_lattice_ext, meq_sym, append_fn.
Qed.

Lemma last_col_lattice p n k B C : (2 <= k)%nat -> last_col fp W fuel method p n k B = Ok C -> same_lattice n k (fn B) (fn C).
Proof using All.
  intros Hk H. unfold last_col in H. set (L := new_lattice fp (W p) n k B false method true 0) in *.
  binv H. binv H. destruct a0 as [[s f'] b]. apply Okinj in H. subst C.
  assert (P : istepsP (lcfg L) (li L) s).
  { destruct (method <? 1).
    - eapply hsizereduce_int in Ha0 as [P _]; [exact P|exact EX|apply mtab_wfm|lia].
    - apply seysenreduce_int in Ha0; [|exact EX]. now apply isteps_P. }
  destruct (new_pres fp (W p) n k B false method true 0) as (Hb & V & UV & EV). fold L in Hb, EV.
  destruct (istepsP_bok _ _ _ P Hb) as (_ & X & UX & EXX).
  change (cn (lcfg L)) with n in EXX. change (cd (lcfg L)) with k in EXX, UX.
  eapply same_lattice_trans; [apply (same_lattice_unimodular n k _ _ V UV EV)|].
  apply (same_lattice_unimodular n k _ _ X UX). eapply meq_trans; [|exact EXX]. apply fn_mtab.
Qed.

Lemma step_sub n A k C C' : (2 <= k)%nat -> sublattice n (k - 1) (fn A) (fn C) ->
  wstep n A k C = Ok C' -> sublattice n k (fn A) (fn C').
Proof using All.
  intros Hk HC H. unfold wrap_step in H. binv H. rename a into B. binv H. destruct a as [g B1].
  apply last_col_lattice in Ha; [|exact Hk]. apply seg_sub in Ha0.
  assert (S1 : sublattice n k (fn A) (fn B1)).
  { eapply sub_trans; [|exact Ha0]. eapply sub_trans; [|apply same_sub; exact Ha].
    eapply sub_trans; [apply (sub_cat n (k - 1) k (fn A) (fn C)); [lia|exact HC]|].
    apply same_sub, same_lattice_ext, meq_sym, append_fn. }
  destruct (2 <=? g); [|apply Okinj in H; subst; exact S1].
  eapply sub_trans; [exact S1|]. eapply gap_sub. exact H.
Qed.

Lemma steps_sub n A m : forall k C C', (1 <= k)%nat -> sublattice n k (fn A) (fn C) ->
  mfold (wstep n A) (seq (k + 1) m) C = Ok C' -> sublattice n (k + m) (fn A) (fn C').
Proof using All.
  induction m as [|m IH]; intros k C C' Hk HC H; cbn [seq mfold] in H.
  - apply Okinj in H. subst. now rewrite Nat.add_0_r.
  - binv H. replace (k + S m)%nat with (S k + m)%nat by lia. replace (S (k + 1)) with (S k + 1)%nat in H by lia.
    eapply (IH (S k)); [lia| |exact H]. replace (S k) with (k + 1)%nat by lia. eapply step_sub; [lia| |exact Ha].
    now replace (k + 1 - 1)%nat with k by lia.
Qed.

Lemma wrap_sub dth n d A C : (1 <= dth)%nat -> (1 <= d)%nat -> wrapf dth n d A = Ok C -> sublattice n d (fn A) (fn C).
Proof using All.
  intros H1 Hd H. unfold slll_wrap in H. binv H. set (d1 := Nat.min d dth) in *.
  assert (1 <= d1 <= d)%nat by lia. replace d with (d1 + (d - d1))%nat by lia.
  eapply steps_sub; [lia| |exact H]. eapply sub_trans; [|apply same_sub; eapply red_lattice; [exact EX|exact Ha]].
  apply same_sub, same_lattice_ext, meq_sym, firstcols_fn.
Qed.

Lemma wrap_same dth n d A C : (d <= dth)%nat -> wrapf dth n d A = Ok C -> same_lattice n d (fn A) (fn C).
Proof using All.
  intros H1 H. unfold slll_wrap in H. binv H. replace (Nat.min d dth) with d in * by lia. rewrite Nat.sub_diag in H. cbn in H.
  apply Okinj in H. subst C. eapply same_lattice_trans; [|eapply red_lattice; [exact EX|exact Ha]].
  apply same_lattice_ext, meq_sym, firstcols_fn.
Qed.
End Segment.

Section SegStaged.
Context {F G : Type} (fp : fpops F) (gp : fpops G) (f0001 f501 fgap f99 : F) (fmul2 : F -> Z -> F)
  (g0001 g501 ggap g99 : G) (gmul2 : G -> Z -> G).
Hypothesis EX : expo_nonneg fp.
Hypothesis EXG : expo_nonneg gp.
Variables (W : nat -> list nat -> junk_t (F := F)) (Wb : nat -> list nat -> nat -> nat -> junk_t (F := F)).
Variables (WG : list nat -> junk_t (F := G)) (WGb : list nat -> nat -> nat -> junk_t (F := G)).

Lemma stage_sub n k d A C C' : (k <= d)%nat -> sublattice n k (fn (firstcols n k A)) (fn C) ->
  sublattice n d (fn (append n k d C A)) (fn C') -> sublattice n d (fn A) (fn C').
Proof.
  intros Hk H1 H2. eapply sub_trans; [|exact H2]. eapply sub_trans; [|apply same_sub, same_lattice_ext, meq_sym, append_fn].
  apply sub_cat; [exact Hk|]. eapply sub_trans; [|exact H1]. apply same_sub, same_lattice_ext, meq_sym, firstcols_fn.
Qed.

Lemma slll_mpz_sub fuel delta junk deltaG junkG Sg dth d1 d2 n d A C :
  (1 <= dth)%nat -> (1 <= d1 <= d2)%nat -> (1 <= d)%nat ->
  slll_mpz fp gp f0001 f501 fgap f99 fmul2 g0001 g501 ggap g99 gmul2 W Wb WG WGb fuel delta junk deltaG junkG Sg dth d1 d2 n d A = Ok C ->
  sublattice n d (fn A) (fn C).
Proof using EX EXG.
  intros HT D12 Hd H. unfold slll_mpz in H. destruct (Nat.leb_spec d d1) as [L1|L1].
  { eapply wrap_sub; [exact EX| | |exact H]; lia. }
  destruct (Nat.leb_spec d d2) as [L2|L2].
  - binv H. apply (stage_sub n d1 d A a C); [lia| |].
    + eapply (wrap_sub fp); [exact EX| | |exact Ha]; lia.
    + eapply (wrap_sub fp); [exact EX| | |exact H]; lia.
  - binv H. binv H. apply (stage_sub n d2 d A a0 C); [lia| |].
    + eapply (wrap_sub fp) in Ha0; [|exact EX|lia|lia]. apply (stage_sub n d1 d2 _ a a0); [lia| |].
      * eapply sub_trans; [|eapply (wrap_sub fp); [exact EX| | |exact Ha]; lia].
        apply same_sub, same_lattice_ext. intros i j Hi Hj. rewrite !firstcols_fn by lia. reflexivity.
      * eapply sub_trans; [|exact Ha0]. apply same_sub, same_lattice_ext. apply firstcols_append with (d := d). lia.
    + eapply (wrap_sub gp); [exact EXG| | |exact H]; lia.
Qed.
End SegStaged.

(** ** block.h *)
Section Block.
Context {F : Type} (fp : fpops F).
Hypothesis EX : expo_nonneg fp.

(** block k of a matrix *)
Definition block (bs k : nat) (A : zmat) : zmat := fun i j => A i (k * bs + j)%nat.

Lemma blk_obj fuel delta junk n d Ain bs dec k L B L' B' :
  (exists A, dims n bs false 0 L /\ pres n bs A L) ->
  blk_step fp fuel delta junk n d Ain bs dec k (L, B) = Ok (L', B') ->
  (exists A, dims n bs false 0 L' /\ pres n bs A L') /\
  (forall i j, (i < n)%nat -> (j < d)%nat -> ~ (k * bs <= j < k * bs + bs)%nat -> fn B' i j = fn B i j) /\
  ((k * bs + bs <= d)%nat -> same_lattice n bs (block bs k (fn Ain)) (block bs k (fn B'))) /\
  ((k * bs + bs <= d)%nat -> (k < dec)%nat -> meq n bs (block bs k (fn Ain)) (block bs k (fn B'))).
Proof using EX.
  intros (A0 & D & P) H. unfold blk_step in H. set (A := mtab n bs _) in H.
  binv H. destruct a as [L1 A1]. apply Okinj in H. injection H as -> <-.
  assert (EA : meq n bs (fn A) (block bs k (fn Ain))) by apply fn_mtab.
  assert (HB : (k * bs + bs <= d)%nat -> meq n bs (block bs k (fn (mtab n d (fun i j => if (k * bs <=? j)%nat && (j <? k * bs + bs)%nat then fn A1 i (j - k * bs)%nat else fn B i j)))) (fn A1)).
  { intros Hk i j Hi Hj. unfold block. rewrite (fn_mtab n d) by lia.
    replace ((k * bs <=? k * bs + j)%nat) with true by (symmetry; apply Nat.leb_le; lia).
    replace (k * bs + j <? k * bs + bs)%nat with true by (symmetry; apply Nat.ltb_lt; lia). cbn [andb]. f_equal. lia. }
  split; [|split; [|split]].
  - destruct (Nat.leb_spec dec k).
    + binv Ha. destruct a as [r L2]. apply Okinj in Ha. injection Ha as -> <-.
      exists (fn A).
      assert (R : run fp [CallAssign A; CallHlll fuel delta true junk] L = Ok L').
      { unfold run. cbn [mfold exec bind]. rewrite Ha0. reflexivity. }
      eapply (run_pres fp EX) in R; [exact R| |exact D|exact P].
      intros fp' f0 d0 j0 J1 J2 [E|[E|[]]]; discriminate.
    + apply Okinj in Ha. injection Ha as <- _. now exists A0.
  - intros i j Hi Hj Hn. rewrite (fn_mtab n d) by assumption.
    destruct (Nat.leb_spec (k * bs) j); [|reflexivity]. destruct (Nat.ltb_spec j (k * bs + bs)); [|reflexivity]. lia.
  - intros Hk. apply same_lattice_trans with (fn A1); [|apply same_lattice_ext, meq_sym, HB, Hk].
    apply same_lattice_trans with (fn A); [apply same_lattice_ext, meq_sym, EA|].
    destruct (Nat.leb_spec dec k).
    + binv Ha. destruct a as [r L2]. apply Okinj in Ha. injection Ha as -> <-.
      assert (R : run fp [CallAssign A; CallHlll fuel delta true junk] L = Ok L').
      { unfold run. cbn [mfold exec bind]. rewrite Ha0. reflexivity. }
      eapply (run_pres fp EX) in R as [D' (Hb & V & UV & EV)]; [| |exact D|exact P].
      2:{ intros fp' f0 d0 j0 J1 J2 [E|[E|[]]]; discriminate. }
      apply (same_lattice_unimodular n bs _ _ V UV). eapply meq_trans; [eapply getbase_fn; exact D'|exact EV].
    + apply Okinj in Ha. injection Ha as _ <-. apply same_lattice_refl.
  - intros Hk Hd. apply meq_trans with (fn A); [apply meq_sym, EA|].
    replace (dec <=? k)%nat with false in Ha by (symmetry; apply Nat.leb_gt; lia).
    apply Okinj in Ha. injection Ha as _ <-. apply meq_sym, HB, Hk.
Qed.

Lemma blk_fold fuel delta junk n d Ain bs dec m : forall k L B L' B',
  (exists A, dims n bs false 0 L /\ pres n bs A L) ->
  mfold (blk_step fp fuel delta junk n d Ain bs dec) (seq k m) (L, B) = Ok (L', B') ->
  (forall i j, (i < n)%nat -> (j < d)%nat -> ~ (k * bs <= j < (k + m) * bs)%nat -> fn B' i j = fn B i j) /\
  (forall q, (k <= q < k + m)%nat -> (q * bs + bs <= d)%nat ->
     same_lattice n bs (block bs q (fn Ain)) (block bs q (fn B')) /\
     ((q < dec)%nat -> meq n bs (block bs q (fn Ain)) (block bs q (fn B')))).
Proof using EX.
  induction m as [|m IH]; intros k L B L' B' HL H; cbn [seq mfold] in H.
  - apply Okinj in H. injection H as <- <-. split; [reflexivity|]. intros; lia.
  - binv H. destruct a as [L1 B1]. apply blk_obj in Ha as (HL1 & HO & HS & HD); [|exact HL].
    apply IH in H as [IO IS]; [|exact HL1]. split.
    + intros i j Hi Hj Hn. rewrite IO by (try assumption; nia). apply HO; [assumption..|nia].
    + intros q Hq Hqd. destruct (Nat.eq_dec q k) as [->|Ne].
      * assert (E : meq n bs (block bs k (fn B1)) (block bs k (fn B'))).
        { intros i j Hi Hj. unfold block. symmetry. apply IO; [assumption|lia|nia]. }
        split.
        -- eapply same_lattice_trans; [apply HS; lia|]. now apply same_lattice_ext.
        -- intros Hdec. eapply meq_trans; [apply HD; lia|exact E].
      * apply IS; lia.
Qed.

Lemma blocks_sub n bs A B m : (forall q, (q < m)%nat -> sublattice n bs (block bs q A) (block bs q B)) -> sublattice n (m * bs) A B.
Proof using Type.
  induction m as [|m IH]; intros H v (c & Hc).
  - exists c. intros i Hi. now rewrite (Hc i Hi).
  - destruct (IH (fun q Hq => H q (Nat.lt_lt_succ_r _ _ Hq)) (fun i => sumZ (m * bs) (fun j => B i j * c j))) as (e & He); [now exists c|].
    destruct (H m (Nat.lt_succ_diag_r m) (fun i => sumZ bs (fun j => B i (m * bs + j)%nat * c (m * bs + j)%nat))) as (e2 & He2).
    { exists (fun j => c (m * bs + j)%nat). intros i Hi. reflexivity. }
    exists (fun j => if (j <? m * bs)%nat then e j else e2 (j - m * bs)%nat). intros i Hi. rewrite (Hc i Hi).
    rewrite !(sumZ_parts (m * bs) (S m * bs)) by lia. replace (S m * bs - m * bs)%nat with bs by lia. f_equal.
    + cbn beta in He. rewrite (He i Hi). apply sumZ_ext. intros j Hj. apply Nat.ltb_lt in Hj. now rewrite Hj.
    + cbn beta in He2. rewrite (He2 i Hi). apply sumZ_ext. intros j Hj. unfold block.
      replace (m * bs + j <? m * bs)%nat with false by (symmetry; apply Nat.ltb_ge; lia). repeat f_equal. lia.
Qed.

Lemma blevel_spec fuel delta junk J n d B0 Ain bs dec B :
  blevel fp fuel delta junk J n d B0 Ain bs dec = Ok B ->
  (forall i j, (i < n)%nat -> (j < d)%nat -> (d / bs * bs <= j)%nat -> fn B i j = fn B0 i j) /\
  (forall q, (q < d / bs)%nat -> same_lattice n bs (block bs q (fn Ain)) (block bs q (fn B))) /\
  (forall i j, (i < n)%nat -> (j < d / bs * bs)%nat -> (j < dec * bs)%nat -> fn B i j = fn Ain i j) /\
  ((d mod bs = 0)%nat -> same_lattice n d (fn Ain) (fn B)).
Proof using EX.
  intros H. unfold blevel in H. binv H. apply Nat.ltb_lt in Hg. binv H. destruct a as [L1 B1]. apply Okinj in H. subst B1.
  assert (DM := Nat.div_mod d bs ltac:(lia)).
  apply blk_fold in Ha as [HO HS].
  2:{ exists (fn (mtab n bs (fun _ _ => 1))). split; [apply new_dims|apply new_pres]. }
  assert (HQ : forall q, (q < d / bs)%nat -> (q * bs + bs <= d)%nat) by (intros q Hq; nia).
  split; [|split; [|split]].
  - intros i j Hi Hj Hn. rewrite HO by (try assumption; nia). now apply fn_mtab.
  - intros q Hq. apply HS; [lia|now apply HQ].
  - intros i j Hi Hj Hd. assert (DJ := Nat.div_mod j bs ltac:(lia)). assert (ML := Nat.mod_upper_bound j bs ltac:(lia)).
    assert (Q : (j / bs < d / bs)%nat) by (apply Nat.div_lt_upper_bound; lia). assert (Q2 : (j / bs < dec)%nat) by (apply Nat.div_lt_upper_bound; lia).
    destruct (HS (j / bs)%nat) as [_ HE]; [split; [apply Nat.le_0_l|exact Q]|now apply HQ|]. specialize (HE Q2 i (j mod bs)%nat Hi ML). unfold block in HE.
    replace (j / bs * bs + j mod bs)%nat with j in HE by lia. now symmetry.
  - intros Dv. replace d with (d / bs * bs)%nat by lia. apply same_iff_sub. split; apply blocks_sub; intros q Hq.
    + apply same_sub, HS; [lia|now apply HQ].
    + apply same_sub, same_lattice_sym, HS; [lia|now apply HQ].
Qed.
End Block.
