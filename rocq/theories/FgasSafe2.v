(** * No out-of-bounds access in the kernel and relation drivers (nullspace.cc, hjls.cc) *)
From Coq Require Import ZArith Lia List Bool Arith.
From Verif Require Import Base Spec Mat FP Hlll IntSteps HlllInt LinDep Structure MachInt MatOps MatOpsFacts ZFgas Fgas Nullspace
  NullHjls Hjls Restart Safety FgasSafe ZFgasSafe.
Import ListNotations.
Local Open Scope nat_scope.

Section Z.
Context {F : Type} (fp : fpops F) (J : junk_t (F := F)) (junk gap gamma : F).

Lemma nullspace_direct_safe fuel A : dwf A -> 0 < dr A < dc A -> safe (fun _ => True) (nullspace_direct fp J junk gap gamma fuel A).
Proof.
  intros WA Hn. unfold nullspace_direct. cbv zeta.
  eapply safe_bind; [apply decomp_safe; try lia; [apply new_zfg_wf|cbn; lia]|].
  intros [fl z] _.
  destruct (transpose_to_ok (resize0 (dc A) (dr A)) (zbase_d (dr A) (dc A) z) (resize0_wf _ _)) as (B & EB & WB & B1 & B2 & _ & _);
    [cbn; lia|cbn; lia|]. rewrite EB. cbn [bind dr dc resize0] in *.
  destruct (null_flags_ok (fun i j => gget B j i) (dr A) (dc A) (fun i j => ent B j i)) as (l & El & Ll & Pl);
    [intros; apply gget_ok; lia|]. rewrite El. cbn [bind].
  destruct (Z.eqb_spec (Z.of_nat (count_true l)) (Z.of_nat (dc A) - Z.of_nat (dr A))) as [Eq|Ne]; cbn [negb]; [|exact I].
  destruct (transpose_to_ok (resize0 (dc A) (dc A)) (mkD (dc A) (dc A) (zgetU (dc A) true z)) (resize0_wf _ _)) as (B' & EB' & WB' & B1' & B2' & VB2 & _);
    [cbn; lia|cbn; lia|]. rewrite EB'. cbn [bind dr dc resize0] in *.
  assert (ER : count_true l = length (filter (fun j => nth j l false) (seq 0 (dc A)))) by (rewrite count_true_filter, Ll; reflexivity).
  destruct (extract_ok (fun i j => gget B' j i) (dc A) l (dc A) (resize0 (dc A) (dc A - dr A)) (fun i j => ent B' j i)
    (resize0_wf _ _)) as (C & E & _); cbn [dr dc resize0]; try lia.
  { intros i j Hi Hj. apply gget_ok; lia. }
  rewrite E. exact I.
Qed.

Lemma hj_fill_safe A n d : n = dc A -> d = dr A -> safe (fun _ => True)
  (for_ n (fun i M => let* M' := for_ d (fun j M => let* a := gget A j i in gset M i j a) M in gset M' i (d + i) 1%Z) (resize0 n (n + d))).
Proof.
  intros -> ->. apply (safe_weaken (fun M => dwf M /\ dr M = dc A /\ dc M = dc A + dr A)); [auto|].
  unfold for_. apply safe_mfold; [split; [apply resize0_wf|cbn; lia]|].
  intros i M Hi HM. apply in_seq in Hi.
  eapply safe_bind with (P := fun M => dwf M /\ dr M = dc A /\ dc M = dc A + dr A).
  - apply safe_mfold; [exact HM|]. intros j N Hj (N1 & N2 & N3). apply in_seq in Hj.
    rewrite gget_ok by lia. cbn [bind]. destruct (gset_ok N i j (ent A j i) N1) as (N' & E & W' & D1 & D2 & _); try lia.
    rewrite E. cbn [safe]. split; [exact W'|]. lia.
  - intros N (N1 & N2 & N3). destruct (gset_ok N i (dr A + i) 1%Z N1) as (N' & E & W' & D1 & D2 & _); try lia.
    rewrite E. cbn [safe]. split; [exact W'|]. lia.
Qed.

Lemma kernel_tail A (VT : dmat) n d (rd : nat -> nat -> nat * nat) : dr A = d -> dc A = n -> d < n -> 0 < d ->
  (forall i j, i < n -> j < n - d -> fst (rd i j) < dr VT /\ snd (rd i j) < dc VT) ->
  safe (fun _ => True)
    (let* C := for2 n (n - d) (fun i j M => let* x := gget VT (fst (rd i j)) (snd (rd i j)) in gset M i j x) (resize0 n (n - d)) in
     let* ZM := matprod (resize0 d (n - d)) A C in
     let* null := null_flags (gget ZM) d (n - d) in
     if negb (count_true null =? n - d) then Ok ((-1)%Z, Some C) else Ok (Z.of_nat (count_true null), Some C)).
Proof.
  intros E1 E2 Hdn Hd Hrd.
  destruct (for2_simple n (n - d) (fun i j M => let* x := gget VT (fst (rd i j)) (snd (rd i j)) in gset M i j x)
     (fun i j => ent VT (fst (rd i j)) (snd (rd i j))) (resize0 n (n - d)) (resize0_wf _ _)) as (C & EC & WC & C1 & C2 & _ & _);
     cbn [dr dc resize0]; try lia.
  { intros i j M Hi Hj _ _ _ _. destruct (Hrd i j Hi Hj). rewrite gget_ok by lia. reflexivity. }
  rewrite EC. cbn [bind]. cbn [dr dc resize0] in C1, C2.
  destruct (matprod_ok (resize0 d (n - d)) A C (resize0_wf _ _)) as (ZM & EZ & WZ & Z1 & Z2 & VZ & _); cbn [dr dc resize0]; try lia.
  rewrite EZ. cbn [bind]. cbn [dr dc resize0] in Z1, Z2.
  destruct (null_flags_ok (gget ZM) d (n - d) (ent ZM)) as (l & El & Ll & Pl); [intros; apply gget_ok; lia|].
  rewrite El. cbn [bind]. destruct (negb _); exact I.
Qed.

Lemma nullspace_hjls_safe fuel A : dwf A -> 0 < dr A < dc A -> safe (fun _ => True) (nullspace_hjls fp J junk gap gamma fuel A).
Proof.
  intros WA Hn. unfold nullspace_hjls. cbv zeta.
  eapply safe_bind; [now apply hj_fill_safe|]. intros B _.
  eapply safe_bind; [apply decomp_safe; try lia; [apply new_zfg_wf|cbn; lia]|].
  intros [fl z] _. destruct (fl <? 0)%Z; [exact I|]. apply safe_guard; [bool_lia|].
  set (N := dc A + dr A) in *.
  destruct (transpose_to_ok (resize0 N N) (mkD N N (zgetV N false z)) (resize0_wf _ _)) as (VT & EV & WV & V1 & V2 & _ & _);
    [cbn; lia|cbn; lia|]. rewrite EV. cbn [bind]. cbn [dr dc resize0] in V1, V2.
  apply (kernel_tail A VT (dc A) (dr A) (fun i j => (2 * dr A + j, dr A + i))); try lia.
  intros i j Hi Hj. cbn [fst snd]. unfold N in *. lia.
Qed.
End Z.

Section G.
Context {F T : Type} (fp : fpops F) (rt : rtops F T).

Lemma nullspace_indirect_safe (fq : fpops T) (rq : rtops T T) J JQ jB gap epsilon ubound gamma fuel A : dwf A -> 0 < dr A < dc A ->
  safe (fun _ => True) (nullspace_indirect fp rt fq rq J JQ jB gap epsilon ubound gamma fuel A).
Proof.
  intros WA Hn. unfold nullspace_indirect. cbv zeta.
  eapply safe_bind with (P := fun _ => True).
  { unfold fgasgen. cbv zeta. apply safe_guard; [bool_lia|].
    eapply safe_bind with (P := fun _ => True); [|intros; exact I]. unfold ghouseholder_all.
    apply (safe_weaken (gkeep (dc A) (dc A + dr A) 0)); [auto|].
    apply safe_mfold; [split; [apply new_fgas_wf|reflexivity]|].
    intros k z Hk Kz. apply in_seq in Hk. apply ghouseholder_safe; try lia. exact Kz. }
  intros FF _.
  eapply safe_bind; [apply gdecomp_safe; try lia; [apply new_fgas_wf|cbn; lia]|].
  intros [fl z] _. destruct (fl <? 0)%Z; [exact I|].
  destruct (transpose_to_ok (resize0 (dc A) (dc A)) (mkD (dc A) (dc A) (ggetV (dc A) z)) (resize0_wf _ _)) as (VT & EV & WV & V1 & V2 & _ & _);
    [cbn; lia|cbn; lia|]. rewrite EV. cbn [bind]. cbn [dr dc resize0] in V1, V2.
  apply (kernel_tail A VT (dc A) (dr A) (fun i j => (dr A + j, i))); try lia.
  intros i j Hi Hj. cbn [fst snd]. lia.
Qed.

Lemma relations_hjls_safe d n nbrel gap epsilon ubound fuel gamma J jB A : 0 < d < n -> nbrel <= n - d ->
  safe (fun _ => True) (relations_hjls fp rt d n nbrel gap epsilon ubound fuel gamma J jB A).
Proof.
  intros Hn Hr. unfold relations_hjls. cbv zeta.
  eapply safe_bind; [apply gdecomp_safe; try lia; [apply new_fgas_wf|cbn; lia]|].
  intros [fl z] _. destruct (fl =? -1)%Z; [exact I|]. apply safe_guard; [bool_lia|]. destruct (_ =? nbrel); exact I.
Qed.

(** an object and calls of its methods: hsizereduce and householder on existing columns, then one decomposition *)
Lemma fgas_calls_safe d n dec transf gap epsilon ubound fuel ops J A r gamma target targetsize :
  dec < d < n -> (dec = 0 \/ n = d + dec) -> (target <= Z.of_nat (d - dec))%Z ->
  (forall o, In o ops -> match o with Gred k | Ghh k => k < n | Gdecomp _ _ _ => False end) ->
  safe (fun _ => True) (gcalls fp rt d n dec transf gap epsilon ubound fuel (ops ++ [Gdecomp gamma target targetsize])
                               (new_fgas rt d n dec transf J A r)).
Proof.
  intros Hd Hy Ht Ho. unfold gcalls. rewrite mfold_app.
  eapply safe_bind with (P := gkeep d n 0).
  - apply safe_mfold; [split; [apply new_fgas_wf|reflexivity]|]. intros o z Hin K. specialize (Ho o Hin).
    destruct o as [k|k|g t s]; cbn [gcall]; [| |destruct Ho].
    + apply ghsizereduce_safe; try lia. exact K.
    + apply ghouseholder_safe; try lia. exact K.
  - intros z [W L]. cbn [mfold gcall]. eapply safe_bind with (P := fun _ => True); [|intros; exact I].
    eapply safe_bind; [apply gdecomp_safe; try lia; exact W|]. intros [a b] _. exact I.
Qed.
End G.

Section R.
Context {F T : Type} (fq : fpops T) (rq : rtops T T) (fp : fpops F) (rf : rtops F F) (conv : T -> F).
Variables (d n nbrel : nat) (gapF : F -> bool) (epsG : T) (epsF : F) (ubF : Z).
Hypothesis Hn : 0 < d < n.
Hypothesis Hr : nbrel <= n - d.

Lemma gpass_safe fuel G V : gkeep n (n + d) 0 G ->
  safe (fun r => gkeep n (n + d) 0 (fst (fst (fst r)))) (gpass fq rq conv d n fuel G V).
Proof.
  intros K. unfold gpass. eapply safe_bind; [apply greds_safe with (l := 0); try lia; [intros j Hj; apply in_seq in Hj; lia|exact K]|].
  intros G1 K1. exact K1.
Qed.

Lemma rloop_safe gamma A fh fuel : forall Fo G V B Bft Resft, gwf n (n + d) Fo -> gldim Fo < n -> gkeep n (n + d) 0 G ->
  safe (fun _ => True) (rloop fq rq fp rf conv d n nbrel gapF epsG epsF ubF fuel fh gamma A Fo G V B Bft Resft).
Proof.
  induction fuel as [|fuel IH]; intros Fo G V B Bft Resft WF LF KG; cbn [rloop]; [exact I|]. cbv zeta.
  eapply safe_bind; [apply gdecomp_safe; try lia; [exact (gset_wf rf n (n + d) d true Bft Resft Fo WF)|exact LF]|].
  intros [fl F1] (W1 & L1 & _). cbn [fst snd] in W1, L1. destruct (Z.eqb_spec fl 0); [exact I|].
  eapply safe_bind; [apply gpass_safe; exact KG|].
  intros [[[G1 V2] B2] Bft2] K1. cbn [fst] in K1. destruct (tgt rq _ _); [exact I|]. apply IH; auto.
Qed.

Lemma restarting_hjls_safe fuel fh gamma JG JF jB A :
  safe (fun _ => True) (restarting_hjls fq rq fp rf conv d n nbrel gapF epsG epsF ubF fuel fh gamma JG JF jB A).
Proof.
  unfold restarting_hjls. cbv zeta. apply safe_guard; [bool_lia|].
  eapply safe_bind; [apply gpass_safe; split; [apply new_fgas_wf|reflexivity]|].
  intros [[[G1 V2] B2] Bft2] K1. cbn [fst] in K1.
  eapply safe_bind; [apply rloop_safe; [apply new_fgas_wf|cbn; lia|exact K1]|].
  intros V1 _. destruct (_ =? 1); exact I.
Qed.
End R.
