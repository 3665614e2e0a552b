(** * C67: with a matrix class whose operations are exact, the reduction is the one of the
      plain class: MatrixPE returns LLL-reduced bases and terminates *)
From Coq Require Import ZArith Reals Lia Lra List Bool Arith.
From Flocq Require Import Core.Core.
From Verif Require Import Base Spec SpecReal Mat FP Hlll IntSteps HlllInt LinDep Structure Object GObject Cache7 Counters HlllM Exact ExactPot Matpe
  Sim Sim5 Plain MatpeExact PropExact Double Examples.
Import ListNotations.

(** the two runs end in the same way, with the same integer matrices and counters *)
Definition same_outcome {F G M} (a : res (Z * glattice (F := G) (M := M))) (b : res (Z * lattice F)) : Prop :=
  match a, b with
  | Ok (r, Lg), Ok (r', L) => r = r' /\ g_getbase Lg = getbase L /\ g_getU Lg = getU L /\ glc Lg = lc L
  | NoFuel, NoFuel => True
  | _, _ => False
  end.

(** Lattice<ZT,FT,MatrixZT,MatrixFT>, then set_num_S and set_nblov_max *)
Definition g_fresh_object {G M} (f0 : gst G M) n d A u m lg vd nS thr nb : glattice :=
  g_set_nblov_max nb (g_set_num_S nS thr (g_new f0 n d A u m lg vd)).

Lemma independent_dim_le n d A : independent n d A -> d <= n.
Proof.
  intros HI. apply independent_staircase in HI. destruct d as [|d]; [lia|].
  destruct (HI d ltac:(lia)) as (i & k & Hi & _). lia.
Qed.

Section Lock.
Context {F G M : Type} (fp : fpops F) (so : sops G) (mo : mops G M)
        (v : G -> F) (mv : M -> nat -> nat -> F) (mwf : M -> Prop) (n d : nat).

Lemma same_outcome_intro a b :
  rrel (fun a b => fst a = fst b /\ objrel fp v mv mwf n d (snd a) (snd b)) a b -> same_outcome a b.
Proof.
  destruct a as [[r Lg]| |], b as [[r' L]| |]; cbn [rrel same_outcome fst snd]; auto.
  intros [-> [O1 O2 O3 _ _ _ _ _]]. unfold g_getbase, g_getU, getbase, getU. now rewrite O1, O2, O3.
Qed.
End Lock.

(** every class whose operations return the values that [fp] gives runs as the plain class
    on any basis of independent columns *)
Theorem C67_lock_step :
  forall (F G M : Type) (fp : fpops F) (so : sops G) (mo : mops G M) (v : G -> F) (mv : M -> nat -> nat -> F)
         (mwf : M -> Prop) (n d : nat),
  slaws fp so v -> mlaws fp so mo v mv mwf n d ->
  forall (R0 Rk0 V0 B0 : M) jVR jnB2 jtoR jx jn, mwf R0 -> mwf Rk0 -> mwf V0 -> mwf B0 ->
  (forall i j, i < n -> j < d -> mv B0 i j = fzero fp) ->
  forall A u m lg vd nS thr nb, independent n d (fn A) ->
  forall fuel delta verbose junk,
    same_outcome
      (g_hlll so mo fuel delta verbose junk
         (g_fresh_object (g_fresh n d R0 Rk0 V0 B0 jVR jnB2 jtoR jx jn) n d A u m lg vd nS thr nb))
      (hlll fp fuel (v delta) verbose (v junk)
         (fresh_object fp (junk_of fp v jVR jnB2 jtoR jx jn) n d A u m lg vd nS thr nb)).
Proof.
  intros F G M fp so mo v mv mwf n d SL ML R0 Rk0 V0 B0 jVR jnB2 jtoR jx jn W1 W2 W3 W4 HB A u m lg vd nS thr nb HI fuel dl vb junk.
  assert (ND : d <= n) by (eapply independent_dim_le; eauto).
  apply (same_outcome_intro fp v mv mwf n d). apply g_hlll_sim; auto.
  apply set_nblov_max_sim, set_num_S_sim. now apply new_sim.
Qed.

(** the same for histories of reductions and parameter settings *)
Theorem C67_lock_step_histories :
  forall (F G M : Type) (fp : fpops F) (so : sops G) (mo : mops G M) (v : G -> F) (mv : M -> nat -> nat -> F)
         (mwf : M -> Prop) (n d : nat),
  slaws fp so v -> mlaws fp so mo v mv mwf n d ->
  forall (R0 Rk0 V0 B0 : M) jVR jnB2 jtoR jx jn, mwf R0 -> mwf Rk0 -> mwf V0 -> mwf B0 ->
  (forall i j, i < n -> j < d -> mv B0 i j = fzero fp) ->
  forall A u m lg vd, independent n d (fn A) ->
  forall qs qs', map (tocall v) qs = map Some qs' ->
    match grun so mo qs (g_new (g_fresh n d R0 Rk0 V0 B0 jVR jnB2 jtoR jx jn) n d A u m lg vd),
          run fp qs' (new_lattice fp (junk_of fp v jVR jnB2 jtoR jx jn) n d A u m lg vd) with
    | Ok Lg, Ok L => g_getbase Lg = getbase L /\ g_getU Lg = getU L /\ glc Lg = lc L
    | NoFuel, NoFuel => True
    | _, _ => False
    end.
Proof.
  intros F G M fp so mo v mv mwf n d SL ML R0 Rk0 V0 B0 jVR jnB2 jtoR jx jn W1 W2 W3 W4 HB A u m lg vd HI qs qs' E.
  assert (ND : d <= n) by (eapply independent_dim_le; eauto).
  pose proof (grun_sim fp so mo v mv mwf n d ND SL ML qs qs' E _ _
    (new_sim fp v mv mwf n d ND R0 Rk0 V0 B0 jVR jnB2 jtoR jx jn A u m lg vd W1 W2 W3 W4 HB HI)) as Q.
  destruct (grun _ _ _ _) as [Lg| |], (run _ _ _) as [L| |]; cbn [rrel] in Q; auto.
  destruct Q as [O1 O2 O3 _ _ _ _ _]. unfold g_getbase, g_getU, getbase, getU. now rewrite O1, O2, O3.
Qed.

(** the plain class is one of them, for arbitrary scalar operations: the model of HlllM.v
    with this class and the model of Hlll.v agree *)
Theorem C67_plain_class :
  forall (F : Type) (fp : fpops F) (n d : nat) (R0 Rk0 V0 : mat F) jVR jnB2 jtoR jx jn,
  wfm n d R0 -> wfm n d Rk0 -> wfm n d V0 ->
  forall A u m lg vd nS thr nb, independent n d (fn A) ->
  forall fuel delta verbose junk,
    same_outcome
      (g_hlll (plain_sops fp) (plain_ops fp n d) fuel delta verbose junk
         (g_fresh_object (g_fresh n d R0 Rk0 V0 (mtab n d (fun _ _ => fzero fp)) jVR jnB2 jtoR jx jn) n d A u m lg vd nS thr nb))
      (hlll fp fuel delta verbose junk
         (fresh_object fp (junk_of fp (fun x => x) jVR jnB2 jtoR jx jn) n d A u m lg vd nS thr nb)).
Proof.
  intros F fp n d R0 Rk0 V0 jVR jnB2 jtoR jx jn W1 W2 W3 A u m lg vd nS thr nb HI fuel dl vb junk.
  apply (C67_lock_step F F (mat F) fp (plain_sops fp) (plain_ops fp n d) (fun x => x) (fun X i j => mget (fzero fp) X i j) (wfm n d) n d);
    auto using plain_slaws, plain_mlaws, mtab_wfm.
  intros i j Hi Hj. now rewrite mget_mtab.
Qed.

(** a run of the plain class with binary64 numbers *)
Example C67_ex_plain :
  match g_hlll (plain_sops dbl) (plain_ops dbl 4 3) 200 d99 false (fzero dbl)
     (g_fresh_object (g_fresh 4 3 (mtab 4 3 (fun _ _ => d99)) (mtab 4 3 (fun _ _ => d99)) (mtab 4 3 (fun _ _ => d99))
        (mtab 4 3 (fun _ _ => fzero dbl)) (fun _ _ => d99) (fun _ => d99) (fun _ => d99) d99 2) 4 3 A1 true 0 true 0 1 5 1000) with
  | Ok (r, L) => r = 0%Z /\ g_getbase L = [[-1;1;1;-4];[2;1;-4;1];[3;-5;-2;-3]]%Z
  | _ => False
  end.
Proof. vm_compute. split; reflexivity. Qed.

(** ** MatrixPE with exact mantissas *)
Section PE.
Context {T G : Type} (fp : fpops R) (so : sops G) (tp : tops T G) (tv : T -> R) (v : G -> R) (n d : nat).
Hypothesis X : exact fp.
Hypothesis TL : tlaws tp tv v.
Hypothesis SL : slaws fp so v.

Lemma pe_zero_wf : pwf n d (pe_zero tp n d).
Proof. split; cbn [pe_zero pm px]; [apply mtab_wfm|apply repeat_length]. Qed.
Lemma pe_zero_val i j : i < n -> j < d -> pval tp tv (pe_zero tp n d) i j = 0%R.
Proof.
  intros Hi Hj. unfold pval, row. cbn [pe_zero pm]. rewrite mget_mtab by assumption. rewrite (x_0 _ _ _ TL). ring.
Qed.

Lemma pe_lock jVR jnB2 jtoR jx jn A u m lg vd nS thr nb fuel dl vb junk : independent n d (fn A) ->
  same_outcome
    (g_hlll so (pe_ops tp n d) fuel dl vb junk (g_fresh_object (pe_init tp n d jVR jnB2 jtoR jx jn) n d A u m lg vd nS thr nb))
    (hlll fp fuel (v dl) vb (v junk) (fresh_object fp (junk_of fp v jVR jnB2 jtoR jx jn) n d A u m lg vd nS thr nb)).
Proof.
  intros HI. apply (C67_lock_step R G (pe T) fp so (pe_ops tp n d) v (pval tp tv) (pwf n d) n d SL); auto using pe_zero_wf.
  - now apply pe_mlaws.
  - intros i j Hi Hj. rewrite (e_zero fp X). now apply pe_zero_val.
Qed.
End PE.

(** hlll over MatrixPE: exact mantissas, exponents that do not overflow, any
    normalisation: the columns returned are LLL-reduced and generate the lattice *)
Theorem C67_MatrixPE_reduces :
  forall (T G : Type) (fp : fpops R) (so : sops G) (tp : tops T G) (tv : T -> R) (v : G -> R),
  exact fp -> slaws fp so v -> tlaws tp tv v ->
  forall n d jVR jnB2 jtoR jx jn A u m lg vd thr nb, 2 <= d -> independent n d (fn A) -> (m < 1)%Z ->
  forall fuel delta verbose junk Lg,
    g_hlll so (pe_ops tp n d) fuel delta verbose junk
      (g_fresh_object (pe_init tp n d jVR jnB2 jtoR jx jn) n d A u m lg vd 1 thr nb) = Ok (0%Z, Lg) ->
    (nblov (glc Lg) < nb)%Z ->
    same_lattice n d (fn A) (fn (g_getbase Lg)) /\ LLL_reduced n d (v delta) (fn (g_getbase Lg)).
Proof.
  intros T G fp so tp tv v X SL TL n d jVR jnB2 jtoR jx jn A u m lg vd thr nb D2 HI Hm fuel dl vb junk Lg H NB.
  pose proof (pe_lock fp so tp tv v n d X TL SL jVR jnB2 jtoR jx jn A u m lg vd 1 thr nb fuel dl vb junk HI) as Q.
  rewrite H in Q. destruct (hlll _ _ _ _ _ _) as [[r L]| |] eqn:E; cbn [same_outcome] in Q; try contradiction.
  destruct Q as (<- & EB & _ & EC). rewrite EC in NB. rewrite EB.
  destruct (C04_exact_hlll_reduces fp X _ n d A u m lg vd thr nb D2 HI Hm fuel (v dl) vb (v junk) L E NB) as (S1 & S2 & _).
  split; assumption.
Qed.

(** it never gives up, and it ends *)
Theorem C67_MatrixPE_terminates :
  forall (T G : Type) (fp : fpops R) (so : sops G) (tp : tops T G) (tv : T -> R) (v : G -> R),
  exact fp -> (forall x, Rabs x <= / 2 -> frnd fp x = 0)%R -> slaws fp so v -> tlaws tp tv v ->
  forall n d jVR jnB2 jtoR jx jn A u m lg vd thr nb, independent n d (fn A) -> (m < 1)%Z ->
  forall fuel delta verbose junk, (v delta <= 1)%R ->
    (2 * potential n d (fn A) + Z.of_nat d + 1 <= Z.of_nat fuel)%Z ->
    exists Lg, g_hlll so (pe_ops tp n d) fuel delta verbose junk
      (g_fresh_object (pe_init tp n d jVR jnB2 jtoR jx jn) n d A u m lg vd 1 thr nb) = Ok (0%Z, Lg) /\
      ((Z.of_nat fuel < nb)%Z -> 2 <= d -> LLL_reduced n d (v delta) (fn (g_getbase Lg))).
Proof.
  intros T G fp so tp tv v X HH SL TL n d jVR jnB2 jtoR jx jn A u m lg vd thr nb HI Hm fuel dl vb junk HD HF.
  destruct (C43_exact_terminates fp X HH (junk_of fp v jVR jnB2 jtoR jx jn) n d A u m lg vd thr nb HI Hm fuel (v dl) vb (v junk) HD HF) as (L & E & HL).
  pose proof (pe_lock fp so tp tv v n d X TL SL jVR jnB2 jtoR jx jn A u m lg vd 1 thr nb fuel dl vb junk HI) as Q.
  rewrite E in Q. destruct (g_hlll _ _ _ _ _ _ _) as [[r Lg]| |]; cbn [same_outcome] in Q; try contradiction.
  destruct Q as (-> & EB & _). exists Lg. split; [reflexivity|]. intros H1 H2. rewrite EB. auto.
Qed.

(** an instance: real mantissas normalised by their binary magnitude, unbounded exponents *)
Definition xval (x : R * Z) : R := (fst x * b2 (snd x))%R.
Definition xnrm (m : R) (e : Z) : R * Z := ((m * b2 (- mag radix2 m))%R, (mag radix2 m + e)%Z).
Lemma xnrm_val m e : xval (xnrm m e) = (m * b2 e)%R.
Proof.
  unfold xval, xnrm. cbn [fst snd]. rewrite bpow_plus. pose proof (b2_opp (mag radix2 m)) as Q.
  replace (m * b2 (- mag radix2 m) * (b2 (mag radix2 m) * b2 e))%R
    with (m * (b2 (- mag radix2 m) * b2 (mag radix2 m)) * b2 e)%R by ring.
  rewrite Q. ring.
Qed.
Definition xof (r : R) : R * Z := xnrm r 0.
Lemma xof_val r : xval (xof r) = r.
Proof. unfold xof. rewrite xnrm_val. cbn. ring. Qed.

Definition xtops : tops R (R * Z) :=
  mk_tops R (R * Z) 0%R Rplus Rminus Rmult Rinv (fun a e => a * b2 e)%R b2 (fun a => Rleb a 0 && Rleb 0 a)
    (fun m e => Ok (xnrm m e)) (fun m e => (m, e)) fst snd (fun x => Ok (xof (sqrt (xval x)))) (fun z => xof (IZR z)) Ok.
Definition xsops : sops (R * Z) :=
  mk_sops (R * Z) (xof 0) (xof 1) (xof (/ 10)) (xof (/ 100)) (xof (/ 100000000000))
    (fun a b => Ok (xof (xval a + xval b))) (fun a b => Ok (xof (xval a * xval b))) (fun a b => Ok (xof (xval a / xval b)))
    (fun a => ((- fst a)%R, snd a)) (fun a => (Rabs (fst a), snd a)) (fun a => Ok (xof (sqrt (xval a))))
    (fun a => Ok (xof (frnd Rfp0 (xval a)))) (fun r a b => Ok (xof (xval r - xval a * xval b)))
    (fun a => Rleb 0 (xval a)) (fun a b => Rleb (xval a) (xval b)) (fun a b => Rltb (xval a) (xval b))
    (fun a b => Rltb (xval b) (xval a)) (fun a => Ok (fnz Rfp0 (xval a))) (fun a => Ok (fgse Rfp0 (xval a)))
    (fun a => Ok (fset_f Rfp0 (xval a))).

Lemma xtlaws : tlaws xtops (fun x => x) xval.
Proof.
  split; cbn [xtops t_0 t_add t_sub t_mul t_inv t_ldexp t_pow2 t_is0 t_mk t_raw t_mant t_exp t_sqrt t_ofz t_int]; intros; try reflexivity.
  - unfold Rleb in *. destruct (Rle_dec a 0), (Rle_dec 0 a); cbn in *; try discriminate. lra.
  - eexists. split; [reflexivity|]. apply xnrm_val.
  - eexists. split; [reflexivity|]. apply xof_val.
  - fold (xval (xof (IZR z))). apply xof_val.
Qed.
Lemma xslaws : slaws Rfp0 xsops xval.
Proof.
  split; try (cbn; apply xof_val); try reflexivity;
    try (intros; cbn; eexists; split; [reflexivity|apply xof_val]).
  - intros [m e]. unfold xval. cbn. ring.
  - intros [m e]. unfold xval. cbn. rewrite Rabs_mult, (Rabs_pos_eq (b2 e)) by apply bpow_ge_0. reflexivity.
Qed.

(** the hypotheses of the theorems above hold: this instance, the basis of Examples.v,
    delta = 3/4 *)
Example C67_ex_terminates :
  exists Lg, g_hlll xsops (pe_ops xtops 4 3) (Z.to_nat (2 * potential 4 3 (fn A1) + 4)) (xof (3 / 4)) false (xof 7)
      (g_fresh_object (pe_init xtops 4 3 (fun _ _ => xof 7) (fun _ => xof 7) (fun _ => xof 7) (xof 7) 3) 4 3 A1 true 0 true 0 1 5 (2 * potential 4 3 (fn A1) + 5)) = Ok (0%Z, Lg) /\
      same_lattice 4 3 (fn A1) (fn (g_getbase Lg)) /\ LLL_reduced 4 3 (3 / 4) (fn (g_getbase Lg)).
Proof.
  assert (P : (0 <= potential 4 3 (fn A1))%Z) by (vm_compute; discriminate).
  destruct (C67_MatrixPE_terminates R (R * Z) Rfp0 xsops xtops (fun x => x) xval Rfp0_exact Rfp0_half xslaws xtlaws 4 3
    (fun _ _ => xof 7) (fun _ => xof 7) (fun _ => xof 7) (xof 7) 3 A1 true 0%Z true 0%Z 5%Z (2 * potential 4 3 (fn A1) + 5)%Z
    A1_independent ltac:(lia) (Z.to_nat (2 * potential 4 3 (fn A1) + 4)) (xof (3 / 4)) false (xof 7)) as (Lg & E & HR).
  - rewrite xof_val. lra.
  - rewrite Z2Nat.id by lia. lia.
  - exists Lg. split; [exact E|]. rewrite xof_val in HR. split; [|apply HR; [rewrite Z2Nat.id; lia|lia]].
    pose proof (pe_lock Rfp0 xsops xtops (fun x => x) xval 4 3 Rfp0_exact xtlaws xslaws
      (fun _ _ => xof 7) (fun _ => xof 7) (fun _ => xof 7) (xof 7) 3 A1 true 0%Z true 0%Z 1 5%Z (2 * potential 4 3 (fn A1) + 5)%Z
      (Z.to_nat (2 * potential 4 3 (fn A1) + 4)) (xof (3 / 4)) false (xof 7) A1_independent) as Q.
    rewrite E in Q. destruct (hlll _ _ _ _ _ _) as [[r L]| |] eqn:EH; cbn [same_outcome] in Q; try contradiction.
    destruct Q as (<- & EB & _ & EC).
    pose proof (hlll_tests _ _ _ _ _ _ _ _ EH) as HT. cbn [fresh_object set_nblov_max set_num_S new_lattice lc nblov] in HT.
    eapply C67_MatrixPE_reduces; [exact Rfp0_exact|exact xslaws|exact xtlaws| | | |exact E|]; [lia|exact A1_independent|lia|].
    rewrite EC. rewrite Z2Nat.id in HT by lia. lia.
Qed.

Print Assumptions C67_lock_step.
Print Assumptions C67_plain_class.
Print Assumptions C67_MatrixPE_reduces.
Print Assumptions C67_MatrixPE_terminates.
