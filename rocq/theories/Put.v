(** * put() and shift() in histories (src/hlll.cc 2193-2247), and the transformation with several threads

    put and shift overwrite B without recomputing [structure]; the facts below say when that is harmless. *)
From Coq Require Import ZArith Lia List Bool Arith Relations.
From Verif Require Import Base Spec Mat FP Hlll IntSteps HlllInt LinDep Structure Hlll2 Object UOnly
  MatOps MatOpsFacts MachInt Trunc Trunc10 Lehmer.
Import ListNotations.

(** every non-zero of [M] lies, in its column j, above (or at) a non-zero of one of the columns 0..j of [A] *)
Definition fits (n d : nat) (A M : zmat) : Prop :=
  forall i j, i < n -> j < d -> M i j <> 0%Z -> exists i' k, i <= i' < n /\ k <= j /\ A i' k <> 0%Z.

Section Put.
Context {F : Type} (fp : fpops F).
Variable e10 : Z -> Z.
Variable e10' : Z -> Z -> Z.

(** calls, put and shift included *)
Inductive xcall :=
| XCall (q : call (F := F))
| XPut (A : dmat) (upperdim : nat) (t tau : Z)
| XShift (A : mat Z) (m : nat) (lsigma : Z).

Definition xexec (x : xcall) (L : lattice F) : res (lattice F) :=
  match x with
  | XCall q => exec fp q L
  | XPut A up t tau => put e10 e10' A up t tau L
  | XShift A m ls => Ok (shift A m ls L)
  end.
Definition xrun (xs : list xcall) (L : lattice F) : res (lattice F) := mfold xexec xs L.

(** the matrix last given to the constructor, assign or shift_assign *)
Fixpoint assigned (A : zmat) (xs : list xcall) : zmat :=
  match xs with
  | [] => A
  | XCall q :: xs' => assigned (current A [q]) xs'
  | _ :: xs' => assigned A xs'
  end.

Definition xprecisions_ok (xs : list xcall) : Prop :=
  forall q, In (XCall q) xs -> precisions_ok [q].

Hypothesis EX : expo_nonneg fp.

(** [structure] covers the non-zeros of A, is monotone; B has the right shape *)
Definition covers (n d : nat) (A : zmat) (L : lattice F) : Prop :=
  length (iS (li L)) = d /\ (smono (lcfg L) (iS (li L)) /\ forall j, j < d -> nth j (iS (li L)) 0 <= n) /\ wfm n d (iB (li L)) /\
  forall i j k, i < n -> j < d -> k <= j -> A i k <> 0%Z -> i < nth j (iS (li L)) 0.

Lemma istep_smono c s t : istep c s t \/ istepP c s t -> length (iS s) = cd c -> smono c (iS s) ->
  length (iS t) = cd c /\ smono c (iS t) /\ (forall j, j < cd c -> nth j (iS s) 0 <= nth j (iS t) 0) /\
  forall N, (forall j, j < cd c -> nth j (iS s) 0 <= N) -> forall j, j < cd c -> nth j (iS t) 0 <= N.
Proof.
  intros St L M. destruct St as [St|St]; [destruct St as [s0 k i a ? ?|s0 k Hk]|destruct St as [s0 k i a r ? ? ?]];
    cbn [iS]; try (split; [assumption|split; [assumption|split; [intros; lia|auto]]]).
  unfold swap_i; cbn [iS]. split; [now rewrite lupd_length|]. split; [now apply swap_structure|].
  split.
  - intros j Hj. rewrite nth_lupd, L. destruct (Nat.eqb_spec j (k - 1)) as [->|]; cbn [andb]; [|lia].
    destruct (k - 1 <? cd c); [|lia]. apply M. lia.
  - intros N HN j Hj. rewrite nth_lupd, L. destruct (Nat.eqb_spec j (k - 1)) as [->|]; cbn [andb]; [|auto].
    destruct (k - 1 <? cd c); apply HN; lia.
Qed.

Lemma isteps_smono c s t : istepsP c s t -> length (iS s) = cd c -> smono c (iS s) ->
  length (iS t) = cd c /\ smono c (iS t) /\ (forall j, j < cd c -> nth j (iS s) 0 <= nth j (iS t) 0) /\
  forall N, (forall j, j < cd c -> nth j (iS s) 0 <= N) -> forall j, j < cd c -> nth j (iS t) 0 <= N.
Proof.
  induction 1 as [x y H|x|x y z _ H1 _ H2]; intros L M.
  - eapply istep_smono; eauto.
  - split; [assumption|split; [assumption|split; [intros; lia|auto]]].
  - destruct (H1 L M) as (L1 & M1 & G1 & B1). destruct (H2 L1 M1) as (L2 & M2 & G2 & B2).
    split; [assumption|split; [assumption|split; [|intros N HN; apply B2, B1, HN]]]. intros j Hj. specialize (G1 j Hj). specialize (G2 j Hj). lia.
Qed.

Lemma structure_covers c n d A : cn c = n -> cd c = d ->
  length (matrix_structure (mtab n d (fn A)) n d) = d /\
  (smono c (matrix_structure (mtab n d (fn A)) n d) /\ forall j, j < d -> nth j (matrix_structure (mtab n d (fn A)) n d) 0 <= n) /\
  forall i j k, i < n -> j < d -> k <= j -> fn A i k <> 0%Z -> i < nth j (matrix_structure (mtab n d (fn A)) n d) 0.
Proof.
  intros E1 E2. split; [apply ms_length|]. split; [split; [intros i j H; rewrite E2 in H; now apply ms_mono|intros; now apply ms_le]|].
  intros i j k Hi Hj Hk N. destruct (Nat.lt_ge_cases i (nth j (matrix_structure (mtab n d (fn A)) n d) 0)) as [G|G]; [assumption|].
  exfalso. apply N. rewrite <- (fn_mtab n d (fn A) i k) by lia. apply (ms_zero _ n d); [lia|].
  pose proof (ms_mono (mtab n d (fn A)) n d k j ltac:(lia)). lia.
Qed.

Lemma exec_inv q L L' : precisions_ok [q] -> reducing q -> exec fp q L = Ok L' ->
  wfm (cn (lcfg L)) (cd (lcfg L)) (iB (li L)) ->
  lcfg L' = lcfg L /\ istepsP (lcfg L) (li L) (li L').
Proof.
  intros PR HR H Hb. destruct q; cbn [reducing] in HR; try contradiction; cbn [exec] in H.
  - binv H. destruct a as [r L1]. injection H as <-. destruct (hlll_inv fp _ _ _ _ _ _ _ EX Ha Hb) as (? & ? & _). auto.
  - binv H. destruct a as [[r st] L1]. injection H as <-.
    assert (EX' : expo_nonneg fp') by (eapply PR; left; reflexivity).
    destruct (isreduced_inv fp' _ _ _ _ _ _ _ _ _ EX' Ha Hb) as (? & ? & _). auto.
  - binv H. destruct a as [r L1]. injection H as <-. destruct (hlllp_inv fp _ _ _ _ _ _ _ _ EX Ha Hb) as (? & ? & _). auto.
Qed.

Lemma xexec_covers n d u m A x L L' : xprecisions_ok [x] -> xexec x L = Ok L' -> dims n d u m L ->
  covers n d A L -> dims n d u m L' /\ covers n d (assigned A [x]) L'.
Proof.
  intros PR H D (H1 & H2 & H3 & H4). pose proof D as (D1 & D2 & D3 & D4).
  destruct x as [q|M up t tau|M k ls]; cbn [xexec assigned] in *.
  - assert (PR' : precisions_ok [q]) by (apply PR; now left).
    assert (RED : reducing q -> dims n d u m L' /\ covers n d A L').
    { intros HR. destruct (exec_inv q L L' PR' HR H) as [E P]; [rewrite D1, D2; exact H3|].
      split; [unfold dims; now rewrite E|].
      destruct (isteps_smono _ _ _ P) as (L1 & M1 & G1 & B1); [congruence|apply H2|].
      unfold covers. rewrite E. rewrite D2 in *. repeat split; auto.
      - apply B1. apply H2.
      - apply isteps_wf in P; [|rewrite D1, D2; assumption]. rewrite D1, D2 in P. apply P.
      - apply isteps_wf in P; [|rewrite D1, D2; assumption]. rewrite D1, D2 in P. apply P.
      - intros i j k Hi Hj Hk N. specialize (G1 j Hj). specialize (H4 i j k Hi Hj Hk N). lia. }
    destruct q; cbn [current] in *; try (apply RED; exact I); cbn [exec] in H; injection H as <-; (split; [exact D|]).
    + unfold covers, assign. cbn [lcfg li iS iB]. rewrite D1, D2.
      destruct (structure_covers (lcfg L) n d A0 D1 D2) as (X & Y & Z). split; [exact X|]. split; [exact Y|]. split; [apply mtab_wfm|exact Z].
    + unfold covers. cbn [set_num_S lcfg li]. split; [exact H1|]. split; [exact H2|]. split; [exact H3|exact H4].
    + unfold covers. cbn [set_nblov_max lcfg li]. split; [exact H1|]. split; [exact H2|]. split; [exact H3|exact H4].
    + unfold covers, shift_assign, assign. cbn [lcfg li iS iB]. rewrite D1, D2.
      set (A' := mtab n d (fun i j => Z.shiftl (fn A0 i j) (nth i sh 0%Z))).
      destruct (structure_covers (lcfg L) n d A' D1 D2) as (X & Y & Z).
      split; [exact X|]. split; [exact Y|]. split; [apply mtab_wfm|].
      intros i j k Hi Hj Hk N. apply (Z i j k Hi Hj Hk). unfold A'. now rewrite fn_mtab by lia.
  - unfold put in H. binv H. injection H as <-. split; [exact D|].
    unfold covers, put_raw. cbn [lcfg li iS iB]. rewrite D1, D2. split; [exact H1|]. split; [exact H2|]. split; [apply mtab_wfm|exact H4].
  - injection H as <-. split; [exact D|].
    unfold covers, shift. cbn [lcfg li iS iB]. rewrite D1, D2. split; [exact H1|]. split; [exact H2|]. split; [apply mtab_wfm|exact H4].
Qed.

Lemma assigned_cons A x xs : assigned A (x :: xs) = assigned (assigned A [x]) xs.
Proof. destruct x; reflexivity. Qed.

Lemma xrun_covers n d u m xs : xprecisions_ok xs -> forall A L L', xrun xs L = Ok L' -> dims n d u m L ->
  covers n d A L -> dims n d u m L' /\ covers n d (assigned A xs) L'.
Proof.
  induction xs as [|x xs IH]; intros PR A L L' H D C.
  - cbn in H. injection H as <-. auto.
  - cbn [xrun mfold] in H. binv H. rename a into L1.
    destruct (xexec_covers n d u m A x L L1) as [D1 C1]; auto.
    { intros q [I|[]]. apply PR. now left. }
    rewrite assigned_cons. eapply IH; eauto. intros q I. apply PR. now right.
Qed.

Lemma new_covers J n d A u m lg vd : covers n d (fn A) (new_lattice fp J n d A u m lg vd).
Proof.
  unfold covers, new_lattice. cbn [lcfg li iS iB].
  match goal with |- context[smono ?c _] => destruct (structure_covers c n d A eq_refl eq_refl) as (X & Y & Z) end.
  split; [exact X|]. split; [exact Y|]. split; [apply mtab_wfm|exact Z].
Qed.

Lemma covers_bok n d A L : cn (lcfg L) = n -> cd (lcfg L) = d -> covers n d A L -> fits n d A (fn (iB (li L))) -> bok (lcfg L) (li L).
Proof.
  intros E1 E2 (H1 & H2 & H3 & H4) HF. split; rewrite ?E1, ?E2; try assumption; try apply H2.
  intros j Hj i Hi. destruct (Z.eq_dec (fn (iB (li L)) i j) 0%Z) as [|N]; [assumption|exfalso].
  destruct (HF i j ltac:(lia) Hj N) as (i' & k & Hi' & Hk & N'). specialize (H4 i' j k ltac:(lia) Hj Hk N'). lia.
Qed.

Lemma covers_sok n d A L : cd (lcfg L) = d -> covers n d A L -> staircase n d A -> sok d (iS (li L)).
Proof.
  intros E (H1 & H2 & _ & H4) HS. split; [assumption|]. split; [intros i j Hij; apply (proj1 H2); now rewrite E|].
  intros j Hj. destruct (HS j Hj) as (i & k & Hi & Hk & N). specialize (H4 i j k ltac:(lia) Hj Hk N). lia.
Qed.

(** from a state whose B fits the structure, runs preserve the lattice of B *)
Lemma run_from_pres n d u m A L qs L' : precisions_ok qs -> dims n d u m L -> covers n d A L ->
  fits n d A (fn (iB (li L))) -> run fp qs L = Ok L' ->
  same_lattice n d (current (fn (getbase L)) qs) (fn (getbase L')).
Proof.
  intros PR D C HF H. pose proof D as (D1 & D2 & _).
  destruct (run_pres fp EX n d u m qs PR (fn (getbase L)) L L' H D) as [D' (Hb & V & UV & EV)].
  { split; [now apply (covers_bok n d A)|]. exists mid. split; [apply unimodular_id|].
    eapply meq_trans; [|apply meq_sym, mmul_id_r]. apply meq_sym. eapply getbase_fn; eassumption. }
  apply same_lattice_unimodular with V; [assumption|].
  eapply meq_trans; [eapply getbase_fn; eassumption|assumption].
Qed.

Lemma run_from_presU n d m A L qs L' : precisions_ok qs -> dims n d true m L -> covers n d A L ->
  fits n d A (fn (iB (li L))) -> staircase n d A -> iU (li L) = id_mat d -> seqn L -> single_thread qs ->
  (forall A', In (CallAssign A') qs -> False) -> (forall A' sh, In (CallShiftAssign A' sh) qs -> False) ->
  run fp qs L = Ok L' ->
  unimodular d (fn (getU L')) /\ meq n d (fn (getbase L')) (mmul d (fn (getbase L)) (fn (getU L'))).
Proof.
  intros PR D C HF HST HU SQ S1 NA NSA H. pose proof D as (D1 & D2 & D3 & _).
  assert (R : lcfg L' = lcfg L \/ True) by auto. clear R.
  assert (HB : bok (lcfg L) (li L)) by now apply (covers_bok n d A).
  assert (P0 : presU n d (fn (getbase L)) L).
  { split; [exact HB|]. split; [|split].
    - apply uok_id; [rewrite D2; now apply (covers_sok n d A)|now rewrite D2].
    - rewrite HU. eapply unimodular_ext; [apply meq_sym, id_mat_fn|apply unimodular_id].
    - eapply meq_trans; [apply meq_sym; eapply getbase_fn; eassumption|].
      eapply meq_trans; [apply meq_sym, mmul_id_r|]. apply mmul_ext; [apply meq_refl|]. rewrite HU. apply meq_sym, id_mat_fn. }
  (* the run, call by call: no assignment, so the presU invariant is unconditional *)
  assert (G : forall qs L, precisions_ok qs -> dims n d true m L -> seqn L -> presU n d (fn (getbase L)) L \/ True ->
     forall B, presU n d B L -> single_thread qs ->
     (forall A', In (CallAssign A') qs -> False) -> (forall A' sh, In (CallShiftAssign A' sh) qs -> False) ->
     forall L', run fp qs L = Ok L' -> dims n d true m L' /\ presU n d B L').
  { clear - EX. induction qs as [|q qs IH]; intros L PR D SQ _ B P S1 NA NSA L' H.
    - cbn in H. injection H as <-. auto.
    - cbn [run mfold] in H. binv H. rename a into L1. apply precisions_cons in PR as [PR1 PR].
      assert (D1 : dims n d true m L1) by (eapply exec_dims; eauto; apply P).
      assert (X : seqn L1 /\ presU n d B L1).
      { assert (RED : reducing q -> seqn L1 /\ presU n d B L1).
        { intros HR. destruct P as (Hb & Hu & UU & EU).
          eapply exec_reducing in Ha as (E & PP & P); eauto. specialize (P SQ).
          split; [unfold seqn; now rewrite E|]. destruct D as (H1 & H2 & H3 & _).
          apply isteps_uok in P as (Hb' & Hu' & W & UW & EW & FW); auto. rewrite H1, H2 in *.
          split; [now rewrite E|]. split; [now rewrite E|]. split.
          + eapply unimodular_ext; [apply meq_sym, FW|]. now apply unimodular_mul.
          + eapply meq_trans; [exact EW|].
            eapply meq_trans. { apply mmul_ext; [exact EU|apply meq_refl]. }
            intros i j Hi Hj. rewrite mmul_assoc.
            apply (mmul_ext n d d); auto; [apply meq_refl|now apply meq_sym]. }
        destruct P as (Hb & Hu & UU & EU).
        destruct q; try (apply RED; exact I); cbn [exec] in Ha; injection Ha as <-.
        - exfalso. eapply NA. left. reflexivity.
        - split; [left; cbn; eapply S1; left; reflexivity|].
          split; [eapply bok_cfg; [| |exact Hb]; reflexivity|]. split; [destruct Hu; now split|split; assumption].
        - split; [exact SQ|].
          split; [eapply bok_cfg; [| |exact Hb]; reflexivity|]. split; [destruct Hu; now split|split; assumption].
        - exfalso. eapply NSA. left. reflexivity. }
      destruct X as [SQ1 P1].
      eapply IH; try eassumption; auto.
      + intros nS thr I. apply (S1 nS thr). now right.
      + intros A' I. apply (NA A'). now right.
      + intros A' sh I. apply (NSA A' sh). now right. }
  destruct (G qs L PR D SQ (or_intror I) _ P0 S1 NA NSA L' H) as [D' (Hb' & Hu' & UU' & EU')].
  pose proof D' as (H1' & H2' & H3' & _).
  assert (EUU : meq d d (fn (getU L')) (fn (iU (li L')))).
  { unfold getU. rewrite H3', H2'. apply fn_mtab. }
  split.
  - eapply unimodular_ext; [apply meq_sym, EUU|assumption].
  - eapply meq_trans; [eapply getbase_fn; eassumption|].
    eapply meq_trans; [exact EU'|]. apply mmul_ext; [apply meq_refl|now apply meq_sym].
Qed.

(** ** getU with any number of threads *)
Definition uinv (n d : nat) (A : zmat) (L : lattice F) : Prop :=
  covers n d A L /\ (staircase n d A -> uok (lcfg L) (li L) /\ unimodular d (fn (iU (li L)))).

Lemma exec_uinv n d m A q L L' : precisions_ok [q] -> exec fp q L = Ok L' -> dims n d true m L ->
  uinv n d A L -> dims n d true m L' /\ uinv n d (current A [q]) L'.
Proof.
  intros PR H D (C & HU).
  destruct (xexec_covers n d true m A (XCall q) L L') as [D' C']; auto.
  { intros q' [I|[]]. injection I as <-. exact PR. }
  cbn [assigned] in C'. split; [exact D'|]. split; [exact C'|]. pose proof D as (D1 & D2 & D3 & _).
  assert (RED : reducing q -> staircase n d A -> uok (lcfg L') (li L') /\ unimodular d (fn (iU (li L')))).
  { intros HR HS. destruct (exec_inv q L L' PR HR H) as [E P]; [rewrite D1, D2; apply C|].
    destruct (HU HS) as [U1 U2]. rewrite E.
    destruct (isteps_u (lcfg L) _ _ P D3) as (_ & U' & V & UV & EV); auto.
    { rewrite D2. now apply (covers_sok n d A). }
    split; [exact U'|]. rewrite D2 in *. eapply unimodular_ext; [apply meq_sym; exact EV|]. now apply unimodular_mul. }
  destruct q; cbn [current] in *; try (apply RED; exact I); cbn [exec] in H; injection H as <-; intros HS.
  - split.
    + apply uok_id; [change (cd (lcfg (assign A0 L))) with (cd (lcfg L)); rewrite D2; now apply (covers_sok n d (fn A0))|].
      unfold assign; cbn [li lcfg iU]. now rewrite D3.
    + unfold assign; cbn [li lcfg iU]. rewrite D3, D2. eapply unimodular_ext; [apply meq_sym, id_mat_fn|apply unimodular_id].
  - destruct (HU HS) as [[? ?] ?]. split; [now split|assumption].
  - destruct (HU HS) as [[? ?] ?]. split; [now split|assumption].
  - split.
    + apply uok_id; [change (cd (lcfg (shift_assign A0 sh L))) with (cd (lcfg L)); rewrite D2; eapply covers_sok; [|exact C'|exact HS]; exact D2|].
      unfold shift_assign, assign; cbn [li lcfg iU]. now rewrite D3.
    + unfold shift_assign, assign; cbn [li lcfg iU]. rewrite D3, D2. eapply unimodular_ext; [apply meq_sym, id_mat_fn|apply unimodular_id].
Qed.

Lemma run_uinv n d m qs : precisions_ok qs -> forall A L L', run fp qs L = Ok L' -> dims n d true m L ->
  uinv n d A L -> dims n d true m L' /\ uinv n d (current A qs) L'.
Proof.
  induction qs as [|q qs IH]; intros PR A L L' H D C.
  - cbn in H. injection H as <-. auto.
  - cbn [run mfold] in H. binv H. rename a into L1. apply precisions_cons in PR as [PR1 PR].
    destruct (exec_uinv n d m A q L L1 PR1 Ha D C) as [D1 C1].
    rewrite current_cons. eapply IH; eauto.
Qed.

Lemma run_U J n d A m lg vd qs L : precisions_ok qs ->
  run fp qs (new_lattice fp J n d A true m lg vd) = Ok L ->
  staircase n d (current (fn A) qs) -> unimodular d (fn (getU L)).
Proof.
  intros PR H HS. destruct (run_uinv n d m qs PR (fn A) _ L H) as [D (C & U)].
  - apply new_dims.
  - split; [apply new_covers|]. intros HA. split.
    + apply uok_id; [|reflexivity]. cbn [new_lattice li lcfg cd iS]. now apply sok_structure.
    + cbn [new_lattice li iU]. eapply unimodular_ext; [apply meq_sym, id_mat_fn|apply unimodular_id].
  - destruct (U HS) as [_ UU]. destruct D as (D1 & D2 & D3 & _). unfold getU. rewrite D3, D2.
    eapply unimodular_ext; [|exact UU]. apply meq_sym, fn_mtab.
Qed.

End Put.
