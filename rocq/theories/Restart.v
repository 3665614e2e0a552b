(** * Restart: restarting_hjls (src/hjls.cc 186-566)

    A : d x n over RT; N = n + d.  G is an Fgas object over RT alone (n x N, dec = 0, NO_TRANSFORM), F one over FT alone
    (n x N, dec = d, TRANSFORM).  Both are the model of Fgas.v; the integers of F (ZT = long) are unbounded, as there. *)
From Coq Require Import ZArith Lia List Bool Arith.
From Verif Require Import Base Spec Mat FP Hlll IntSteps HlllInt LinDep Structure ZFgas Fgas FgasInt NullHjls Hjls.
Import ListNotations.
Local Open Scope nat_scope.

Section Model.
Context {F T : Type}.
Variables (fq : fpops T) (rq : rtops T T).       (* RT as FT and as RT: object G *)
Variables (fp : fpops F) (rf : rtops F F).       (* FT as both: object F *)
Variable conv : T -> F.                          (* Bft.setcol, Resft.setcol: RT to FT *)
Notation tz := (tzero rq).
Variables (d n nbrel : nat).
Notation N := (n + d).
(** parameters of the two objects: confidence gaps, epsilons (G: set by init; F: shift_epsilon(16)), bounds on the
    bit size of U (G: unused, decomp is not called; F: shift_testU(4)) *)
Variables (gapF : F -> bool) (epsG : T) (epsF : F) (ubF : Z).

(** matprod_in(V,W), matprod_in_si, mat.h 1263-1285, 1610-1632 *)
Definition vmul (V W : mat Z) : mat Z := mtab N N (mmul N (fn V) (fn W)).

(** matprod_in(B,FUr) over RT, mat.h 1713-1735 *)
Definition bmul (B : mat T) (U : mat Z) : mat T :=
  mtab n N (fun i j => fold_left (fun acc k => taddmul rq acc (mget tz B i k) (tofz rq (fn U k j))) (seq 1 (N - 1))
                         (tmul rq (mget tz B i 0) (tofz rq (fn U 0 j)))).

(** residue, 279-291 and 405-417 *)
Definition residue (A : mat T) (V : mat Z) : mat T :=
  mtab n d (fun i j => fold_left (fun acc k => tadd rq acc (tmul rq (tofz rq (fn V (d + k) (d + i))) (mget tz A j k))) (seq 0 n) tz).

(** normalization, 293-303 and 436-446: division by the largest absolute value *)
Definition rmax (R : mat T) (rows : list nat) : T :=
  fold_left (fun acc i => fold_left (fun acc j => let t := tabs rq (mget tz R i j) in if tgt rq t acc then t else acc) (seq 0 d) acc) rows tz.
Definition normalized (R : mat T) : mat T := let a := rmax R (seq 0 n) in mtab n d (fun i j => tdiv rq (mget tz R i j) a).

Definition convm (r c : nat) (M : mat T) : mat F := mtab r c (fun i j => conv (mget tz M i j)).

(** G.hsizereduce(j), j = 0..N-1; then V := V G.getV(), B := G.getfgas(), Bft := G.getR(): 263-273, 383-399 *)
Definition gpass (fuel : nat) (G : fgas T T) (V : mat Z) : res (fgas T T * mat Z * mat T * mat F) :=
  let* G1 := mfold (ghsizereduce fq rq n N 0 false fuel) (seq 0 N) G in
  Ok (G1, vmul V (ggetV N G1), ggetfgas rq n N G1, convm n N (ggetR fq n N G1)).

(** the main loop, 333-452; [Fo] is the object F.  Result: V *)
Fixpoint rloop (fuel fh : nat) (gamma : F) (A : mat T) (Fo : fgas F F) (G : fgas T T) (V : mat Z) (B : mat T)
         (Bft Resft : mat F) : res (mat Z) :=
  match fuel with
  | O => NoFuel
  | S fuel' =>
      let F0 := gset_ rf n N d true Bft Resft Fo in
      let* (flag, F1) := gdecomp fp rf n N d true gapF epsF ubF fh gamma (Z.of_nat nbrel) (2 ^ 63 - 1) F0 in
      if (flag =? 0)%Z then Ok (vmul V (ggetV N F1))
      else
        let B1 := bmul B (ggetU N true F1) in
        let V1 := vmul V (ggetV N F1) in
        let* (G1, V2, B2, Bft2) := gpass fh (gset_ rq n N 0 false B1 B1 G) V1 in
        let Res := residue A V2 in
        (* 423-434 *)
        if tgt rq epsG (rmax Res [n - 1]) then Ok V2
        else rloop fuel' fh gamma A F1 G1 V2 B2 Bft2 (convm n d (normalized Res))
  end.

(** restarting_hjls(C, A, nbrel, setprec), 186-566.  [jB]: the entries B(i,d+k), k <> i, that lines 224-228 do not
    set.  n >= 1 and nbrel <= N are needed by the accesses. *)
Definition restarting_hjls (fuel fh : nat) (gamma : F) (JG : junk_t (F := T)) (JF : junk_t (F := F))
    (jB : nat -> nat -> T) (A : mat T) : res (Z * mat Z) :=
  guard ((1 <=? n) && (nbrel <=? N))
  (let B := hj_input rq d n jB A in
   let* (G, V, B1, Bft) := gpass fh (new_fgas rq n N 0 false JG B B) (id_mat N) in
   let Resft := convm n d (normalized (residue A V)) in
   let* V1 := rloop fuel fh gamma A (new_fgas rf n N d true JF Bft Resft) G V B1 Bft Resft in
   (* 464-474 *)
   let C := mtab n nbrel (fun i j => fn V1 (d + i) (N - nbrel + j)) in
   (* 481-537 *)
   let zeroed j := forallb (fun i => negb (tgt rq (tabs rq (hj_prod rq n A C i j)) epsG)) (seq 0 d) in
   if length (filter zeroed (seq 0 nbrel)) =? 1 then Ok (Z.of_nat nbrel, C) else Ok ((-1)%Z, C)).
End Model.

(** ** Facts *)

(** block lower triangular with a unimodular lower right block *)
Definition blk (d n : nat) (V : mat Z) : Prop :=
  wfm (n + d) (n + d) V /\ unimodular n (fun a b => fn V (d + a) (d + b)) /\
  forall s r, s < d -> d <= r < n + d -> fn V s r = 0%Z.

Lemma blk_mul d n V W : blk d n V -> blk d n W -> blk d n (vmul d n V W).
Proof.
  intros (V1 & V2 & V3) (W1 & W2 & W3). unfold vmul. split; [apply mtab_wfm|]. split.
  - apply (unimodular_ext n (mmul n (fun a b => fn V (d + a) (d + b)) (fun a b => fn W (d + a) (d + b)))); [|now apply unimodular_mul].
    intros i j Hi Hj. rewrite fn_mtab by lia. unfold mmul. replace (n + d) with (d + n) by lia. rewrite sumZ_split.
    rewrite (sumZ_0 d); [|intros k Hk; rewrite (W3 k (d + j)) by lia; ring]. rewrite Z.add_0_l. reflexivity.
  - intros s r Hs Hr. rewrite fn_mtab by lia. unfold mmul. apply sumZ_0. intros k Hk.
    destruct (Nat.lt_ge_cases k d) as [L|L]; [rewrite (W3 k r) by lia; ring|rewrite (V3 s k) by lia; ring].
Qed.

Lemma blk_id d n : blk d n (id_mat (n + d)).
Proof.
  split; [apply mtab_wfm|]. split.
  - apply (unimodular_ext n mid); [|apply unimodular_id]. intros i j Hi Hj. rewrite id_mat_fn by lia. unfold mid.
    destruct (Nat.eqb_spec i j), (Nat.eqb_spec (d + i) (d + j)); try lia; reflexivity.
  - intros s r Hs Hr. rewrite id_mat_fn by lia. unfold mid. destruct (Nat.eqb_spec s r); [lia|reflexivity].
Qed.

Lemma blk_ext d n V V' : meq (n + d) (n + d) (fn V) (fn V') -> wfm (n + d) (n + d) V' -> blk d n V -> blk d n V'.
Proof.
  intros E WF (V1 & V2 & V3). split; [exact WF|]. split.
  - eapply unimodular_ext; [|exact V2]. intros i j Hi Hj. apply E; lia.
  - intros s r Hs Hr. rewrite <- E by lia. now apply V3.
Qed.

Lemma tinv_blk {T : Type} d n transf P (x : gex T) : tinv (n + d) d transf P x -> blk d n (xW x).
Proof.
  intros I. pose proof (block_unimodular (n + d) d transf P x ltac:(lia) I) as [B1 B2].
  replace (n + d - d) with n in B1, B2 by lia. destruct I as (W1 & _ & _ & _ & _ & Z0).
  split; [exact W1|]. split; [eexists; split; eauto|]. intros s r Hs Hr. apply Z0; lia.
Qed.

(** G only eliminates: its W is unit lower triangular *)
Definition glow (d n : nat) (W : mat Z) : Prop :=
  binv (n + d) d W /\ forall p q, q < n + d -> p <= q -> fn W p q = if p =? q then 1%Z else 0%Z.

Lemma glow_wf d n W : glow d n W -> wfm (n + d) (n + d) W.
Proof. intros [(P & I) _]. apply I. Qed.

Lemma glow_blk d n W : glow d n W -> blk d n W.
Proof. intros [(P & I) _]. apply (tinv_blk d n false P _ I). Qed.

Lemma glow_col d n W i kappa xz : 0 < d -> i < kappa -> kappa < n + d -> glow d n W ->
  glow d n (colop 0%Z (redf (- xz)) 0 (n + d) W i kappa).
Proof.
  intros D Hi Hk H. pose proof (glow_wf _ _ _ H) as WF. destruct H as [B L]. split; [now apply binv_col|].
  intros p q Hq Hp. unfold fn. rewrite (mget_colop 0%Z _ (n + d) (n + d)) by (try assumption; lia).
  fold (fn W p q).
  match goal with |- context [if ?b then _ else _] => destruct b eqn:E end; [|apply L; lia].
  apply andb_true_iff in E as [E _]. apply Nat.eqb_eq in E. subst q.
  unfold redf. fold (fn W p i) (fn W p kappa). rewrite (L p kappa) by lia. rewrite (L p i) by lia.
  destruct (Nat.eqb_spec p kappa); [lia|]. destruct (p =? i); ring.
Qed.

Section Facts.
Context {F T : Type} (fq : fpops T) (rq : rtops T T) (fp : fpops F) (rf : rtops F F) (conv : T -> F).
Variables (d n nbrel : nat) (gapF : F -> bool) (epsG : T) (epsF : F) (ubF : Z).
Hypothesis D0 : 0 < d.
Notation N := (n + d).

Lemma gelims_low kappa l : (forall i, In i l -> i < kappa) -> forall z b z' b',
  mfold (gelim fq rq n N 0 false kappa) l (z, b) = Ok (z', b') -> glow d n (xW (gx z)) -> glow d n (xW (gx z')).
Proof.
  induction l as [|i l IH]; intros Hl z b z' b' H I; cbn [mfold] in H.
  - injection H as <- _. exact I.
  - binv H. destruct a as [z1 b1]. eapply IH; [|exact H|]; [intros j Hj; apply Hl; now right|].
    unfold gelim in Ha. binv Ha. binv Ha. destruct (fnz fq _); [|injection Ha as <- _; exact I].
    binv Ha. injection Ha as <- _. cbn [set_gx gx]. unfold xcol in Ha2. apply guard_Ok in Ha2 as [G Ha2].
    apply andb_true_iff in G as [G1 G2]. apply Nat.ltb_lt in G1, G2. binv Ha2. apply Okinj in Ha2. subst a1. cbn [xW].
    apply glow_col; auto. apply Hl. now left.
Qed.

Lemma ghs_loop_low fuel kappa : forall z z', ghs_loop fq rq n N 0 false fuel kappa z = Ok z' -> glow d n (xW (gx z)) -> glow d n (xW (gx z')).
Proof.
  induction fuel as [|fuel IH]; intros z z' H I; cbn [ghs_loop] in H; [discriminate|].
  binv H. destruct a as [z1 sd]. apply gelims_low in Ha; [|intros i Hi; eapply elim_list_lt; eauto|exact I].
  destruct sd.
  - binv H. apply ghouseholder_same in Ha0 as [E _]. rewrite <- E in Ha.
    destruct (flt fq _ _); [now apply IH in H|]. now injection H as <-.
  - now injection H as <-.
Qed.

Lemma greds_low fuel l : forall z z', mfold (ghsizereduce fq rq n N 0 false fuel) l z = Ok z' -> glow d n (xW (gx z)) -> glow d n (xW (gx z')).
Proof.
  induction l as [|a l IH]; intros z z' H I; cbn [mfold] in H.
  - injection H as <-. exact I.
  - binv H. apply IH in H; [exact H|]. unfold ghsizereduce in Ha. binv Ha. apply ghouseholder_same in Ha0 as [E _].
    apply ghs_loop_low in Ha; [exact Ha|]. now rewrite E.
Qed.

Lemma gpass_blk fuel G V G1 V1 B1 Bft : gpass fq rq conv d n fuel G V = Ok (G1, V1, B1, Bft) ->
  glow d n (xW (gx G)) -> blk d n V -> glow d n (xW (gx G1)) /\ blk d n V1.
Proof.
  unfold gpass. intros H I IV. binv H. injection H as <- <- _ _. apply greds_low in Ha; [|exact I].
  split; [exact Ha|]. apply blk_mul; [exact IV|]. apply (blk_ext d n (xW (gx a))); [|apply mtab_wfm|now apply glow_blk].
  intros i j Hi Hj. unfold ggetV. now rewrite fn_mtab.
Qed.

Lemma glow_set A r G : glow d n (xW (gx G)) -> glow d n (xW (gx (gset_ rq n N 0 false A r G))).
Proof.
  intros H. pose proof (glow_wf _ _ _ H) as WF. unfold gset_. cbn [set_gx gx xW].
  replace (mtab N N (fun i j => if i =? j then 1%Z else fn (xW (gx G)) i j)) with (xW (gx G)); [exact H|].
  apply (mat_ext 0%Z N N); [exact WF|apply mtab_wfm|]. intros i j Hi Hj. rewrite mget_mtab by assumption.
  destruct (Nat.eqb_spec i j) as [->|]; [|reflexivity]. destruct H as [_ L]. pose proof (L j j Hj (le_n j)) as Q. rewrite Nat.eqb_refl in Q. exact Q.
Qed.

(** the first round *)
Lemma rloop_first fh gamma A J Bft0 Res0 G V B Bft Resft V1 :
  rloop fq rq fp rf conv d n nbrel gapF epsG epsF ubF 1 fh gamma A (new_fgas rf n N d true J Bft0 Res0) G V B Bft Resft = Ok V1 ->
  glow d n (xW (gx G)) -> blk d n V -> blk d n V1.
Proof.
  intros H IG IV. cbn [rloop] in H. cbv zeta in H. binv H. destruct a as [flag F1].
  apply gdecomp_steps in Ha as [S _].
  assert (I0 : tinv N d true mid (gx (gset_ rf n N d true Bft Resft (new_fgas rf n N d true J Bft0 Res0)))).
  { assert (DG : forall M, M = id_mat N -> mtab N N (fun i j => if i =? j then 1%Z else fn M i j) = id_mat N).
    { intros M ->. apply (mat_ext 0%Z N N); [apply mtab_wfm|apply mtab_wfm|]. intros i j Hi Hj.
      rewrite mget_mtab by assumption. fold (fn (id_mat N) i j). rewrite id_mat_fn by assumption.
      unfold mid. destruct (i =? j); reflexivity. }
    apply id_inv; unfold gset_, new_fgas; cbn [set_gx gx xW xU keepU orb]; [now apply DG|intros _; now apply DG]. }
  destruct (xsteps_inv rf n N d true mid _ _ S I0) as (P & I).
  assert (BF : blk d n (ggetV N F1)).
  { apply (blk_ext d n (xW (gx F1))); [|apply mtab_wfm|exact (tinv_blk d n true P _ I)].
    intros i j Hi Hj. unfold ggetV. now rewrite fn_mtab. }
  destruct (flag =? 0)%Z.
  - injection H as <-. now apply blk_mul.
  - binv H. destruct a as [[[G1 V2] B2] Bft2]. apply gpass_blk in Ha as [_ IV2].
    + destruct (tgt rq _ _); [now injection H as <-|discriminate].
    + now apply glow_set.
    + now apply blk_mul.
Qed.

Lemma restarting_first fh gamma JG JF jB A r C :
  restarting_hjls fq rq fp rf conv d n nbrel gapF epsG epsF ubF 1 fh gamma JG JF jB A = Ok (r, C) ->
  nbrel <= n -> exists M, unimodular n M /\ forall i j, i < n -> j < nbrel -> fn C i j = M i (n - nbrel + j).
Proof.
  unfold restarting_hjls. intros H Hb. cbv zeta in H. apply guard_Ok in H as [G H]. binv H. destruct a as [[[Go V] B1] Bft]. binv H.
  apply gpass_blk in Ha as [IG IV]; [| |apply blk_id].
  2:{ split; [exists mid; apply id_inv; [reflexivity|]; intros K; unfold keepU in K; cbn in K; apply Nat.eqb_eq in K; lia|].
      intros p q Hq Hp. unfold new_fgas. cbn [gx xW]. rewrite id_mat_fn by lia. unfold mid. reflexivity. }
  apply rloop_first in Ha0; [|exact IG|exact IV]. destruct Ha0 as (_ & U & _).
  exists (fun x y => fn a (d + x) (d + y)). split; [exact U|]. intros i j Hi Hj.
  destruct (_ =? 1) in H; injection H as <- <-; rewrite fn_mtab by assumption; f_equal; lia.
Qed.

(** the value returned *)
Lemma restarting_return fuel fh gamma JG JF jB A r C :
  restarting_hjls fq rq fp rf conv d n nbrel gapF epsG epsF ubF fuel fh gamma JG JF jB A = Ok (r, C) ->
  1 <= n /\ wfm n nbrel C /\
  (let zeroed j := forallb (fun i => negb (tgt rq (tabs rq (hj_prod rq n A C i j)) epsG)) (seq 0 d) in
   (r = Z.of_nat nbrel /\ length (filter zeroed (seq 0 nbrel)) = 1) \/ (r = (-1)%Z /\ length (filter zeroed (seq 0 nbrel)) <> 1)).
Proof.
  unfold restarting_hjls. intros H. cbv zeta in H. apply guard_Ok in H as [G H]. apply andb_true_iff in G as [G _]. apply Nat.leb_le in G.
  binv H. destruct a as [[[Go V] B1] Bft]. binv H. split; [exact G|].
  destruct (Nat.eqb_spec (length (filter (fun j => forallb (fun i => negb (tgt rq (tabs rq (hj_prod rq n A (mtab n nbrel (fun i j => fn a (d + i) (N - nbrel + j))) i j)) epsG)) (seq 0 d)) (seq 0 nbrel))) 1) as [E|E];
    injection H as <- <-; (split; [apply mtab_wfm|]); cbv zeta; auto.
Qed.
End Facts.
