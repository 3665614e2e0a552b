(** * Objects the transparency theorem applies to: new ones, and used ones after assign *)
From Coq Require Import ZArith Lia List Bool Arith Relations.
From Verif Require Import Base Spec Mat FP Hlll Hlll2 IntSteps HlllInt Structure Object Safety Fresh Cache Cache2 Cache3 Cache4 Cache5 Cache6.
Import ListNotations.

Section Objects.
Context {F : Type} (fp : fpops F).
Hypothesis EX : expo_nonneg fp.

(** a new object after set_num_S and set_nblov_max *)
Definition fresh_object (J : junk_t (F := F)) (n d : nat) (A : mat Z) (u : bool) (m : Z) (lg : bool) (vd : Z)
  (nS : nat) (thr nb : Z) : lattice F :=
  set_nblov_max nb (set_num_S nS thr (new_lattice fp J n d A u m lg vd)).

(** which arithmetic/structure combinations are covered *)
Definition structure_ok (n d : nat) (A : zmat) : Prop := first_reaches n d A \/ zero_laws fp.

Lemma first_reaches_const n d A c U : cn c = n -> cd c = d -> first_reaches n d (fn A) ->
  const_struct c (mkI (mtab n d (fn A)) U (matrix_structure (mtab n d (fn A)) n d)).
Proof.
  intros <- <- (r & Hr & Nz & HZ) i j Hi Hj. cbn [iS].
  set (B := mtab _ _ _). pose proof (fn_mtab (cn c) (cd c) (fn A)) as E. fold B in E.
  assert (X : forall k, k < cd c -> nth k (matrix_structure B (cn c) (cd c)) 0 = S r).
  { intros k Hk. apply Nat.le_antisymm.
    - apply ms_least; auto. intros q p Hq Hp. rewrite E by lia. apply HZ; lia.
    - assert (H0 : S r <= nth 0 (matrix_structure B (cn c) (cd c)) 0).
      { destruct (Nat.le_gt_cases (S r) (nth 0 (matrix_structure B (cn c) (cd c)) 0)) as [H|H]; auto.
        exfalso. apply Nz. rewrite <- E by lia. apply (ms_zero B (cn c) (cd c)); lia. }
      pose proof (ms_mono B (cn c) (cd c) 0 k ltac:(lia)). lia. }
  now rewrite !X.
Qed.

Lemma sgood_init n d A c U : cn c = n -> cd c = d -> staircase n d (fn A) ->
  sgood c (mkI (mtab n d (fn A)) U (matrix_structure (mtab n d (fn A)) n d)).
Proof.
  intros <- <- ST. split.
  - apply bok_init, mtab_wfm.
  - intros j Hj. cbn [iS]. apply ms_staircase; auto. eapply staircase_ext; [apply meq_sym, fn_mtab|assumption].
  - intros j Hj. cbn [iS]. now apply ms_le.
Qed.

Lemma ready_fresh J n d A u m lg vd nS thr nb : staircase n d (fn A) -> structure_ok n d (fn A) ->
  ready fp (fresh_object J n d A u m lg vd nS thr nb).
Proof.
  intros ST SO. unfold ready, fresh_object, set_nblov_max, set_num_S, new_lattice. cbn [lcfg li lf cn cd ckmax].
  split; [reflexivity|]. split; [now apply sgood_init|]. split.
  - eapply fwf_cfg; [| |apply (fwf_mtab_new fp J n d u m lg)]; reflexivity.
  - destruct SO as [FR|Z]; [left|right].
    + now apply first_reaches_const.
    + split; [assumption|]. intros j i Hj Hi. cbn [init_f fBfp].
      unfold mget. unfold col, mtab. rewrite nth_map_seq by assumption. rewrite nth_map_seq by lia. reflexivity.
Qed.

Lemma ready_assign n d A L : lsafe n d L -> staircase n d (fn A) -> first_reaches n d (fn A) -> ready fp (assign A L).
Proof.
  intros (H1 & H2 & H3 & Hs & Hf) ST FR. unfold ready, assign. cbn [lcfg li lf].
  split; [congruence|]. rewrite H1, H2. split; [now apply sgood_init|]. split.
  - pose proof (fwf_reset _ _ Hf) as W. destruct W.
    split; unfold hlll_reset; setf; auto.
    + now rewrite map_length.
    + intros j Hj K. exfalso. unfold hlll_reset in *. setf.
      rewrite nth_imap with (da := false) in K by (destruct Hf; setf; lia).
      apply Nat.ltb_lt in Hj. rewrite Hj in K. discriminate.
  - left. now apply first_reaches_const.
Qed.

(** without transf, U is never touched *)
Lemma istepsP_noU c s t : istepsP c s t -> ctransf c = false -> iU t = iU s.
Proof.
  intros H E. induction H as [x y [H|H]|x|x y z _ H1 _ H2]; try congruence.
  - destruct H; unfold swap_i; cbn [iU]; now rewrite E.
  - destruct H. reflexivity.
Qed.

(** what a history keeps of the configuration *)
Definition keeps (n d : nat) (u : bool) (m : Z) (lg : bool) (L : lattice F) : Prop :=
  dims n d u m L /\ clong (lcfg L) = lg /\ bok (lcfg L) (li L) /\ (u = false -> iU (li L) = []).

Lemma keeps_new J n d A u m lg vd : keeps n d u m lg (new_lattice fp J n d A u m lg vd).
Proof.
  split; [apply new_dims|]. split; [reflexivity|]. split.
  - apply (new_pres fp J n d A u m lg vd).
  - intros ->. reflexivity.
Qed.

Lemma keeps_exec n d u m lg q L L' : precisions_ok [q] -> exec fp q L = Ok L' -> keeps n d u m lg L -> keeps n d u m lg L'.
Proof.
  intros PR H (D & Lg & Hb & HU).
  assert (HA : forall A, keeps n d u m lg (assign A L)).
  { intros A. split; [exact D|]. split; [exact Lg|]. split.
    - apply (assign_pres n d u m A L D).
    - intros ->. unfold assign. cbn [li iU]. destruct D as (_ & _ & -> & _). now apply HU. }
  destruct q; cbn [exec] in H.
  - binv H. destruct a as [r L1]. injection H as <-.
    pose proof (hlll_inv fp fuel delta verbose junk L r L1 EX Ha (b_wf _ _ Hb)) as (E & SP & _).
    split; [|split; [|split]]; rewrite ?E; auto.
    + unfold dims. now rewrite E.
    + apply (isteps_bok (lcfg L) (li L)); assumption.
    + intros ->. rewrite (istepsP_noU _ _ _ SP); [now apply HU|]. apply D.
  - injection H as <-. apply HA.
  - injection H as <-. split; [exact D|]. split; [exact Lg|]. split; [|exact HU].
    eapply bok_cfg; [| |exact Hb]; reflexivity.
  - injection H as <-. split; [exact D|]. split; [exact Lg|]. split; [|exact HU].
    eapply bok_cfg; [| |exact Hb]; reflexivity.
  - injection H as <-. apply HA.
  - binv H. destruct a as [[r st] L1]. injection H as <-.
    pose proof (isreduced_inv fp' fuel delta junk J1 J2 L r st L1 ltac:(eapply PR; left; reflexivity) Ha (b_wf _ _ Hb)) as (E & SP & _).
    split; [|split; [|split]]; rewrite ?E; auto.
    + unfold dims. now rewrite E.
    + apply (isteps_bok (lcfg L) (li L)); assumption.
    + intros ->. rewrite (istepsP_noU _ _ _ SP); [now apply HU|]. apply D.
  - binv H. destruct a as [r L1]. injection H as <-.
    pose proof (hlllp_inv fp fuel c501 delta dthr junk L r L1 EX Ha (b_wf _ _ Hb)) as (E & SP & _).
    split; [|split; [|split]]; rewrite ?E; auto.
    + unfold dims. now rewrite E.
    + apply (isteps_bok (lcfg L) (li L)); assumption.
    + intros ->. rewrite (istepsP_noU _ _ _ SP); [now apply HU|]. apply D.
Qed.

Lemma keeps_run n d u m lg qs : precisions_ok qs -> forall L L', run fp qs L = Ok L' -> keeps n d u m lg L -> keeps n d u m lg L'.
Proof.
  induction qs as [|q qs IH]; intros PR L L' H K; cbn [run mfold] in H.
  - injection H as <-. exact K.
  - binv H. apply precisions_cons in PR as [P1 P2]. eapply IH; eauto. eapply keeps_exec; eauto.
Qed.

(** the number of swaps already counted plays no role *)
Definition addswaps (k : Z) (q : cnt) : cnt := mkC (nblov q) (nbswaps q + k) (vdepth q).

Lemma loop_addswaps c hr k fuel delta vb : forall s f kappa pk p q,
  hlll_loop_g fp c hr fuel delta vb s f kappa pk p (addswaps k q) =
  match hlll_loop_g fp c hr fuel delta vb s f kappa pk p q with
  | Ok (r, s', f', q') => Ok (r, s', f', addswaps k q') | UB => UB | NoFuel => NoFuel end.
Proof.
  assert (E1 : forall q, inc_lov (addswaps k q) = addswaps k (inc_lov q)) by (intros []; reflexivity).
  assert (E2 : forall q, inc_swap (addswaps k q) = addswaps k (inc_swap q)).
  { intros []. unfold inc_swap, addswaps. cbn. f_equal. lia. }
  assert (E3 : forall q, inc_depth vb (addswaps k q) = addswaps k (inc_depth vb q)) by (intros []; destruct vb; reflexivity).
  induction fuel as [|fuel IH]; intros s f kappa pk p q; cbn [hlll_loop_g];
    change (nblov (addswaps k q)) with (nblov q); destruct (negb _); rewrite ?E3; auto.
  destruct (hlll_enter_g _ _ _ _ _ _) as [f1| |]; cbn [bind]; auto.
  destruct (reduce_g _ _ _ _ _ _ _) as [[[s2 f2] fl]| |]; cbn [bind]; auto.
  destruct fl; [reflexivity|].
  destruct (lovasz _ _ _ _ _ _) as [[lt nt]| |]; cbn [bind]; auto.
  rewrite !E1. destruct (fle fp lt nt); unfold guard; destruct (kappa <? cd c); auto.
  - destruct (householder_v _ _ _ _) as [f3| |]; cbn [bind]; auto.
    destruct (gR _ _ _ _ _) as [rkk| |]; cbn [bind]; auto.
    destruct (_ && _)%bool; [now rewrite E3|]. apply IH.
  - rewrite E2. apply IH.
Qed.

End Objects.
