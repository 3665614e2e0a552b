(** * Lock step: objects and histories *)
From Coq Require Import ZArith Lia List Bool Arith.
From Verif Require Import Base Spec Mat FP Hlll HlllM HlllInt LinDep Structure Object GObject Safety Cache7 Sim Sim2 Sim3 Sim4.
Import ListNotations.

Lemma map_seq_map {A B} (v : A -> B) (h : nat -> A) n : map v (map h (seq 0 n)) = map (fun i => v (h i)) (seq 0 n).
Proof. now rewrite map_map. Qed.
Lemma mtab_map {A B} (v : A -> B) n d h : map (map v) (mtab n d h) = mtab n d (fun i j => v (h i j)).
Proof. unfold mtab. rewrite map_map. apply map_ext. intros j. apply map_map. Qed.

Lemma ms_swf (c : cfg) B U : staircase (cn c) (cd c) (fn B) -> swf c (mkI B U (matrix_structure B (cn c) (cd c))).
Proof.
  intros HI. split; cbn [iS].
  - intros j Hj. pose proof (ms_staircase B (cn c) (cd c) j HI Hj). pose proof (ms_le B (cn c) (cd c) j Hj). lia.
  - intros i j Hij Hj. now apply ms_mono.
Qed.

Section Obj.
Context {F G M : Type} (fp : fpops F) (so : sops G) (mo : mops G M)
        (v : G -> F) (mv : M -> nat -> nat -> F) (mwf : M -> Prop) (n d : nat).
Hypothesis ND : d <= n.
Hypothesis SL : slaws fp so v.
Hypothesis ML : mlaws fp so mo v mv mwf n d.

Record objrel (Lg : glattice (F := G) (M := M)) (L : lattice F) : Prop := {
  o_cfg : glcfg Lg = lcfg L; o_i : gli Lg = li L; o_c : glc Lg = lc L;
  o_n : cn (lcfg L) = n; o_d : cd (lcfg L) = d; o_km : ckmax (lcfg L) = d;
  o_s : swf (lcfg L) (li L);
  o_f : core0 fp v mv mwf (lcfg L) (li L) (glf Lg) (lf L) }.

Lemma repeat_mapv a k : map v (repeat a k) = repeat (v a) k.
Proof. induction k as [|k IH]; cbn; congruence. Qed.

Theorem g_hlll_sim fuel dl vb junk Lg L : objrel Lg L ->
  rrel (fun a b => fst a = fst b /\ objrel (snd a) (snd b))
    (g_hlll so mo fuel dl vb junk Lg) (hlll fp fuel (v dl) vb (v junk) L).
Proof.
  intros [O1 O2 O3 O4 O5 O6 O7 O8]. unfold g_hlll, hlll. rewrite O1, O2, O3.
  set (c := lcfg L) in *.
  assert (ND' : cd c <= cn c) by lia.
  assert (ML' : mlaws fp so mo v mv mwf (cn c) (cd c)) by now rewrite O4, O5.
  rewrite <- repeat_mapv.
  eapply rrel_bind with (P := finv fp v mv mwf c).
  - apply (hlll_loop_sim fp so mo v mv mwf c ND' SL ML'); [lia| |lia].
    pose proof (reset_core0 fp v mv mwf c ND' _ _ _ O8) as C0.
    assert (DZ : forall j, nth j (gdesc (g_hlll_reset c (glf Lg))) 0 = 0).
    { intros j. unfold g_hlll_reset. setg. set (l := gdesc _). clearbody l. revert j. clear.
      induction l as [|a l IH]; intros [|j]; cbn; auto. }
    split; [exact O7|]. split; [exact C0|]. split; [congruence|]. split; [intros j _; apply DZ|intros _; right; apply DZ].
  - intros [[[r s] g] q] [[[r' s'] f] q'] (<- & <- & <- & HS & C0). cbn [rrel fst snd].
    split; [reflexivity|]. split; cbn [glcfg gli glf glc lcfg li lf lc]; auto.
Qed.

Lemma set_num_S_sim S thr Lg L : objrel Lg L -> objrel (g_set_num_S S thr Lg) (set_num_S S thr L).
Proof.
  intros [O1 O2 O3 O4 O5 O6 O7 O8]. unfold g_set_num_S, set_num_S. rewrite O1.
  split; cbn [glcfg gli glf glc lcfg li lf lc cn cd ckmax]; auto.
  destruct O8 as [[C1 C2 C3 C4] W]. split; [|destruct W; split; auto]. split; auto.
  destruct C1. split; auto. destruct r_wf. split; auto.
Qed.
Lemma set_nblov_max_sim nb Lg L : objrel Lg L -> objrel (g_set_nblov_max nb Lg) (set_nblov_max nb L).
Proof.
  intros [O1 O2 O3 O4 O5 O6 O7 O8]. unfold g_set_nblov_max, set_nblov_max. rewrite O1.
  split; cbn [glcfg gli glf glc lcfg li lf lc cn cd ckmax]; auto.
  destruct O8 as [[C1 C2 C3 C4] W]. split; [|destruct W; split; auto]. split; auto.
  destruct C1. split; auto. destruct r_wf. split; auto.
Qed.

(** the object after construction: matrices of the right size, Bfp all zero, the rest
    as allocated *)
Definition g_fresh (R0 Rk0 V0 B0 : M) (jVR : nat -> nat -> G) (jnB2 jtoR : nat -> G) (jx : G) (jn : nat) : gst G M :=
  mkG R0 Rk0 V0 B0 (mtab d d jVR) (map jnB2 (seq 0 d)) jx (map jtoR (seq 0 n)) jn
      (repeat false (d + 1)) (repeat (-1)%Z d) (repeat 0 d).
Definition junk_of (jVR : nat -> nat -> G) (jnB2 jtoR : nat -> G) (jx : G) (jn : nat) : junk_t (F := F) :=
  mkJ (fun _ _ => fzero fp) (fun _ _ => fzero fp) (fun _ _ => fzero fp) (fun i j => v (jVR i j))
      (fun j => v (jnB2 j)) (fun j => v (jtoR j)) (v jx) jn.

Lemma new_sim R0 Rk0 V0 B0 jVR jnB2 jtoR jx jn A u m lg vd :
  mwf R0 -> mwf Rk0 -> mwf V0 -> mwf B0 -> (forall i j, i < n -> j < d -> mv B0 i j = fzero fp) ->
  independent n d (fn A) ->
  objrel (g_new (g_fresh R0 Rk0 V0 B0 jVR jnB2 jtoR jx jn) n d A u m lg vd)
         (new_lattice fp (junk_of jVR jnB2 jtoR jx jn) n d A u m lg vd).
Proof.
  intros W1 W2 W3 W4 HB HI. pose proof (new_lsafe fp (junk_of jVR jnB2 jtoR jx jn) n d A u m lg vd) as (_ & _ & _ & _ & W).
  set (L := new_lattice _ _ _ _ _ _ _ _ _) in *.
  split; try reflexivity.
  - unfold L, new_lattice. cbn [li lcfg].
    apply (ms_swf (mkCfg n d u d 4294967295%Z m lg 1 1000000%Z)). cbn [cn cd].
    apply independent_staircase in HI. intros j Hj. destruct (HI j Hj) as (i & k & Hi & Hk & N). exists i, k.
    split; [assumption|]. split; [assumption|]. now rewrite fn_mtab by lia.
  - split; [|apply W].
    assert (ZB : forall i j, i < n -> j < d -> mget (fzero fp) (fBfp (lf L)) i j = fzero fp)
      by (intros i j Hi Hj; unfold L; cbn [lf new_lattice init_f fBfp]; now rewrite mget_mtab by assumption).
    split; try (intros k Hk; lia).
    + split; auto.
      * intros i j Hi Hj. setg. rewrite ZB by assumption. now apply HB.
      * unfold L. cbn [lf new_lattice init_f set_nmax fVR]. cbn. now rewrite mtab_map.
      * cbn. now rewrite map_map.
      * cbn. now rewrite map_map.
      * apply (fwf_fwd (lcfg L) ND). exact W.
    + intros i j Hj Hi. setg. apply ZB; [apply Hi|exact Hj].
Qed.

(** histories of reductions and parameter settings *)
Definition tocall (q : gcall (F := G) (M := M)) : option (call (F := F)) :=
  match q with
  | GHlll fuel dl vb junk => Some (CallHlll fuel (v dl) vb (v junk))
  | GNumS nS thr => Some (CallSetNumS nS thr)
  | GNblovMax nb => Some (CallSetNblovMax nb)
  | _ => None
  end.

Lemma grun_sim : forall qs qs', map tocall qs = map Some qs' -> forall Lg L, objrel Lg L ->
  rrel objrel (grun so mo qs Lg) (run fp qs' L).
Proof.
  induction qs as [|q qs IH]; intros [|q' qs'] E Lg L O; try discriminate; cbn [grun run mfold]; [exact O|].
  cbn [map] in E. injection E as E1 E2.
  eapply rrel_bind with (P := objrel); [|intros a b Hab; now apply IH].
  destruct q; cbn [tocall] in E1; try discriminate; injection E1 as <-; cbn [gexec exec].
  - eapply rrel_bind; [now apply g_hlll_sim|]. intros [r1 L1] [r2 L2] [_ O']. exact O'.
  - now apply set_num_S_sim.
  - now apply set_nblov_max_sim.
Qed.
End Obj.
