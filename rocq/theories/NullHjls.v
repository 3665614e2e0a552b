(** * NullHjls: the transformation of nullspace_hjls is block triangular

    In ZFgas::decomp (ZFgas.v) called with dec > 0 and a target not above d - dec no column below dec is swapped, so
    that the lower right block of getV stays unimodular. *)
From Coq Require Import ZArith Lia List Bool Arith.
From Verif Require Import Base Spec Mat FP Hlll IntSteps HlllInt LinDep Structure MatOps MatOpsFacts ZFgas KernelLA Nullspace Fgas FgasInt.
Import ListNotations.
Local Open Scope nat_scope.

(** [P]: the transformation so far, W its inverse transpose, both with a zero block *)
Definition binv (n dec : nat) (W : mat Z) : Prop := exists P, tinv n dec false P (mkX (T := Z) [] [] W []).

Definition rt0 : rtops unit Z := mkRT unit Z 0%Z Z.add Z.sub Z.mul (fun r _ _ => r) (fun r _ _ => r) Z.mul Z.abs (fun _ _ => false)
  (fun _ => false) (fun z => z) (fun _ => tt).

Lemma binv_col n dec W i kappa xz : 0 < dec -> i < kappa -> kappa < n -> binv n dec W -> binv n dec (colop 0%Z (redf (- xz)) 0 n W i kappa).
Proof.
  intros D Hi Hk (P & I).
  assert (E : exists x', xcol rt0 n n dec false kappa i xz (mkX [] [] W []) = Ok x' /\ xW x' = colop 0%Z (redf (- xz)) 0 n W i kappa /\ xU x' = []).
  { unfold xcol. replace (i <? n) with true by (symmetry; apply Nat.ltb_lt; lia).
    replace (kappa <? n) with true by (symmetry; apply Nat.ltb_lt; lia). cbn [andb guard].
    assert (K : keepU dec false = false) by (unfold keepU; cbn; apply Nat.eqb_neq; lia). rewrite K.
    destruct ((dec <=? i) && (0 <? dec)); cbn [bind].
    - unfold yrow. replace (i - dec <? n) with true by (symmetry; apply Nat.ltb_lt; lia).
      replace (kappa - dec <? n) with true by (symmetry; apply Nat.ltb_lt; lia). cbn [andb guard bind]. eexists. repeat split.
    - eexists. repeat split. }
  destruct E as (x' & E & EW & EU).
  destruct (xcol_inv rt0 n n dec false P kappa i xz _ _ Hi E I) as (_ & _ & I'). eexists. 
  unfold tinv in *. cbn [xW xU] in *. rewrite EW, EU in I'. exact I'.
Qed.

Lemma binv_swap n dec W p q : 0 < dec -> dec <= p < n -> dec <= q < n -> binv n dec W -> binv n dec (colswap W p q).
Proof.
  intros D Hp Hq (P & I).
  assert (E : exists x', xswap rt0 n n dec false p q (mkX [] [] W []) = Ok x' /\ xW x' = colswap W p q /\ xU x' = []).
  { unfold xswap. replace (p <? n) with true by (symmetry; apply Nat.ltb_lt; lia).
    replace (q <? n) with true by (symmetry; apply Nat.ltb_lt; lia). cbn [andb guard].
    assert (K : keepU dec false = false) by (unfold keepU; cbn; apply Nat.eqb_neq; lia). rewrite K.
    replace (0 <? dec) with true by (symmetry; apply Nat.ltb_lt; lia).
    replace (dec <=? p) with true by (symmetry; apply Nat.leb_le; lia).
    replace (dec <=? q) with true by (symmetry; apply Nat.leb_le; lia). cbn [andb guard].
    unfold yswap. replace (p - dec <? n) with true by (symmetry; apply Nat.ltb_lt; lia).
    replace (q - dec <? n) with true by (symmetry; apply Nat.ltb_lt; lia). cbn [andb guard bind]. eexists. repeat split. }
  destruct E as (x' & E & EW & EU).
  destruct (xswap_inv rt0 n n dec false P p q _ _ E I) as (_ & _ & _ & I'). eexists.
  unfold tinv in *. cbn [xW xU] in *. rewrite EW, EU in I'. exact I'.
Qed.

Section Blocks.
Context {F : Type} (fp : fpops F).
Variables (d n dec : nat) (gap : F).
Hypothesis D0 : 0 < dec.
Notation zelim := (zelim fp d n false).
Notation zhs_loop := (zhs_loop fp d n false).
Notation zhsizereduce := (zhsizereduce fp d n false).
Definition bz (l : nat) (z : zfg F) : Prop := binv n dec (zW z) /\ zldim z = l.

Lemma bz_same l z z' : same_int z z' -> bz l z -> bz l z'.
Proof. unfold bz. intros (_ & _ & E & E'). rewrite E, E'. auto. Qed.

Lemma zelims_bz l kappa li : (forall i, In i li -> i < kappa) -> forall z b z' b',
  mfold (zelim kappa) li (z, b) = Ok (z', b') -> bz l z -> bz l z'.
Proof.
  induction li as [|i li IH]; intros Hl z b z' b' H I; cbn [mfold] in H.
  - injection H as <- _. exact I.
  - binv H. destruct a as [z1 b1]. eapply IH; [|exact H|]; [intros j Hj; apply Hl; now right|].
    unfold ZFgas.zelim in Ha. binv Ha. binv Ha. unfold zget in Ha0. apply guard_Ok in Ha0 as [G _].
    apply andb_true_iff in G as [_ G]. apply Nat.ltb_lt in G.
    destruct (fnz fp _); [|injection Ha as <- _; exact I]. injection Ha as <- _.
    destruct I as [I1 I2]. split; [|exact I2]. cbn [zcol set_int zW set_zR]. apply binv_col; auto. apply Hl. now left.
Qed.

Lemma zhs_loop_bz l fuel kappa : forall z z', zhs_loop fuel kappa z = Ok z' -> bz l z -> bz l z'.
Proof.
  induction fuel as [|fuel IH]; intros z z' H I; cbn [ZFgas.zhs_loop] in H; [discriminate|].
  binv H. destruct a as [z1 sd]. apply (zelims_bz l) in Ha; auto; [|intros i Hi; eapply elim_list_lt; eauto].
  destruct sd.
  - binv H. apply zhouseholder_same in Ha0. pose proof (bz_same l _ _ Ha0 Ha) as I2.
    destruct (flt fp _ _); [now apply (IH a)|]. now injection H as <-.
  - now injection H as <-.
Qed.

Lemma zhsizereduce_bz l fuel kappa z z' : zhsizereduce fuel kappa z = Ok z' -> bz l z -> bz l z'.
Proof.
  unfold ZFgas.zhsizereduce. intros H I. binv H. apply zhouseholder_same in Ha.
  eapply zhs_loop_bz; [exact H|]. eapply bz_same; eauto.
Qed.

Lemma zreds_bz l fuel li z z' : mfold (zhsizereduce fuel) li z = Ok z' -> bz l z -> bz l z'.
Proof.
  intros H I. apply (mfold_inv (bz l) (zhsizereduce fuel) li z z'); auto.
  intros a t t' _ Ht E. eapply zhsizereduce_bz; eauto.
Qed.

Lemma zswap_bz l p q z z' : zswap n false p q z = Ok z' -> dec <= p -> dec <= q -> bz l z -> bz l z'.
Proof.
  unfold zswap. intros H Hp Hq [I1 I2]. apply guard_Ok in H as [G H]. apply andb_true_iff in G as [G1 G2].
  apply Nat.ltb_lt in G1, G2. injection H as <-. split; [|exact I2]. cbn [set_int zW]. now apply binv_swap.
Qed.

Lemma zleft_ge R g hi m : zleft fp d n dec R g hi = Ok m -> dec <= m.
Proof.
  unfold zleft. intros H. apply guard_Ok in H as [_ H]. binv H. binv H. destruct a0 as [m' t]. injection H as <-.
  apply (mfold_inv (fun st : nat * F => dec <= fst st)) in Ha0; [exact Ha0| |cbn; lia].
  intros j [m1 t1] [m2 t2] Hj I E. apply guard_Ok in E as [_ E]. binv E. apply in_seq in Hj.
  destruct (flt fp _ _); injection E as <- <-; cbn [fst] in *; lia.
Qed.

Lemma zright_ge R row lo hi m : zright fp d n R row lo hi = Ok m -> lo <= m.
Proof.
  unfold zright. intros H. binv H. binv H. destruct a0 as [m' t]. injection H as <-.
  apply (mfold_inv (fun st : nat * F => lo <= fst st)) in Ha0; [exact Ha0| |cbn; lia].
  intros j [m1 t1] [m2 t2] Hj I E. binv E. apply in_seq in Hj.
  destruct (flt fp _ _); injection E as <- <-; cbn [fst] in *; lia.
Qed.

Lemma zloop_bz target : (target <= Z.of_nat d - Z.of_nat dec)%Z -> forall fuel g l z maxh dg pk pR r z',
  zloop fp d n dec false gap fuel g target z maxh dg pk pR = Ok (r, z') -> dec <= maxh -> bz l z ->
  binv n dec (zW z').
Proof.
  intros HT. induction fuel as [|fuel IH]; intros g l z maxh dg pk pR r z' H HM I; cbn [zloop] in H; [discriminate|].
  cbv zeta in H. apply guard_Ok in H as [_ H]. binv H. binv H.
  assert (I1 : exists l', bz l' a0).
  { destruct (flt fp _ _).
    - binv Ha0. injection Ha0 as <-. exists (S l). destruct (Z.ltb_spec (Z.of_nat maxh) (Z.of_nat n - Z.of_nat (zldim (inc_nblov z)) - 1)) as [L|L].
      + apply (zswap_bz l) in Ha1; [|lia|lia|exact I]. destruct Ha1 as [A1 A2]. split; [exact A1|]. cbn [set_ldim zldim]. lia.
      + injection Ha1 as <-. destruct I as [A1 A2]. split; [exact A1|]. cbn [set_ldim inc_nblov zldim]. lia.
    - injection Ha0 as <-. exists l. exact I. }
  destruct I1 as (l' & I1). clear Ha0. destruct (Z.leb_spec target (Z.of_nat (zldim a0))) as [L|L]; [injection H as <- <-; apply I1|].
  assert (EL : zldim a0 = l') by apply I1.
  binv H. binv H. match goal with X : zleft _ _ _ _ _ _ _ = Ok _ |- _ => apply zleft_ge in X as ML end.
  binv H. destruct a3 as [[bad pk'] pR']. destruct bad; [injection H as <- <-; apply I1|].
  destruct (_ <? _)%Z.
  - binv H. binv H.
    match goal with X : zswap _ _ _ _ _ = Ok _ |- _ => apply (zswap_bz l') in X; [|lia|lia|exact I1] end.
    match goal with X : mfold (zhsizereduce _) _ _ = Ok _ |- _ => apply (zreds_bz l') in X; auto end.
    eapply IH; eauto.
  - binv H. apply guard_Ok in H as [GL H]. apply Nat.ltb_lt in GL. binv H. binv H. binv H.
    match goal with X : zright _ _ _ _ _ _ _ = Ok _ |- _ => apply zright_ge in X as MR end.
    match goal with X : mfold (zhsizereduce _) _ _ = Ok _ |- _ => apply (zreds_bz l') in X; auto end.
    match goal with X : zswap _ _ _ _ _ = Ok _ |- _ => apply (zswap_bz l') in X; [|lia|lia|assumption] end.
    match goal with X : zhsizereduce _ _ _ = Ok _ |- _ => apply (zhsizereduce_bz l') in X; auto end.
    eapply IH; [exact H| |eassumption]. lia.
Qed.

Lemma decomp_bz J A fuel gamma target junk r z' : (target <= Z.of_nat d - Z.of_nat dec)%Z ->
  decomp fp d n dec false gap fuel gamma target junk (new_zfg d n false J A) = Ok (r, z') -> binv n dec (zW z').
Proof.
  unfold decomp. intros HT H. apply guard_Ok in H as [_ H]. binv H. binv H.
  apply (zreds_bz 0) in Ha.
  - eapply zloop_bz; eauto.
  - split; [|reflexivity]. exists mid. apply id_inv; [reflexivity|]. intros K. unfold keepU in K. cbn in K.
    apply Nat.eqb_eq in K. lia.
Qed.
End Blocks.

(** the last k columns of a unimodular matrix *)
Lemma last_columns d n (A C V : zmat) : d <= n -> unimodular n V ->
  (forall i q, i < n -> q < n - d -> C i q = V i (d + q)) ->
  (forall i q, i < d -> q < n - d -> mmul n A C i q = 0%Z) ->
  kernel_vectors d n (n - d) A C /\ (independent n d (mtr A) -> generates_kernel d n (n - d) A C).
Proof.
  intros Hd HV EC HZ.
  set (p := fun j => d <=? j).
  assert (FS : filter p (seq 0 n) = seq d (n - d)).
  { replace n with (d + (n - d)) at 1 by lia. rewrite seq_app, filter_app. cbn [Nat.add].
    assert (F1 : forall l, (forall j, In j l -> j < d) -> filter p l = []).
    { induction l as [|a l IH]; intros H; [reflexivity|]. cbn. unfold p at 1.
      replace (d <=? a) with false by (symmetry; apply Nat.leb_gt; apply H; now left). apply IH. intros; apply H; now right. }
    assert (F2 : forall l, (forall j, In j l -> d <= j) -> filter p l = l).
    { induction l as [|a l IH]; intros H; [reflexivity|]. cbn. unfold p at 1.
      replace (d <=? a) with true by (symmetry; apply Nat.leb_le; apply H; now left). f_equal. apply IH. intros; apply H; now right. }
    rewrite F1 by (intros j Hj; apply in_seq in Hj; lia). rewrite F2 by (intros j Hj; apply in_seq in Hj; lia). reflexivity. }
  assert (LF : length (filter p (seq 0 n)) = n - d) by (rewrite FS; apply seq_length).
  split.
  - split; [exact HZ|]. exists V, (fun q => d + q). split; [exact HV|]. split; [intros; lia|]. split; [intros; lia|]. exact EC.
  - intros HR. rewrite <- LF. apply (kernel_complete d n A V p); auto.
    + intros j i Hj Hi Hp. unfold p in Hp. apply Nat.leb_le in Hp.
      rewrite <- (HZ i (j - d)) by lia. unfold mmul. apply sumZ_ext. intros l Hl. rewrite EC by lia. do 2 f_equal. lia.
    + lia.
    + intros i q Hi Hq. rewrite FS. rewrite LF in Hq. rewrite seq_nth by assumption. now apply EC.
Qed.

(** ** nullspace_hjls *)
Lemma nullspace_hjls_full {F : Type} (fp : fpops F) J junk gap g2 fuel A r oC : dwf A -> 0 < dr A -> 0 < dc A ->
  nullspace_hjls fp J junk gap g2 fuel A = Ok (r, oC) ->
  r = (-1)%Z \/
  exists (k : nat) C, r = Z.of_nat k /\ oC = Some C /\ dr C = dc A /\ dc C = k /\ k + dr A = dc A /\
    kernel_vectors (dr A) (dc A) k (ent A) (ent C) /\
    (independent (dc A) (dr A) (mtr (ent A)) -> generates_kernel (dr A) (dc A) k (ent A) (ent C)).
Proof.
  intros WA Hd Hn H. unfold nullspace_hjls in H. cbv zeta in H.
  apply bind_Ok in H as (B & _ & H). apply bind_Ok in H as ([fl z] & HD & H).
  destruct (fl <? 0)%Z; [injection H as <- <-; now left|].
  apply guard_Ok in H as [G H]. apply Nat.leb_le in G.
  apply decomp_bz in HD; [|assumption|lia]. destruct HD as (P & HT).
  pose proof (block_unimodular (dc A + dr A) (dr A) false P _ ltac:(lia) HT) as [U1 U2]. cbn [xW] in U1, U2.
  replace (dc A + dr A - dr A) with (dc A) in U1, U2 by lia.
  set (N := dc A + dr A) in *.
  destruct (transpose_to_ok (resize0 N N) (mkD N N (zgetV N false z)) (resize0_wf _ _)) as (VT & EV & WV & V1 & V2 & EVT & _);
    [cbn; lia|cbn; lia|]. rewrite EV in H. cbn [bind dr dc resize0] in H, V1, V2, EVT.
  destruct (for2_simple (dc A) (dc A - dr A) (fun i j M => let* x := gget VT (2 * dr A + j) (dr A + i) in gset M i j x)
     (fun i j => ent VT (2 * dr A + j) (dr A + i)) (resize0 (dc A) (dc A - dr A)) (resize0_wf _ _)) as (C & EC & WC & C1 & C2 & VC & _);
     cbn [dr dc resize0]; try lia.
  { intros i j M Hi Hj _ _ _ _. rewrite gget_ok by (unfold N in *; lia). reflexivity. }
  rewrite EC in H. cbn [bind] in H. cbn [dr dc resize0] in C1, C2.
  destruct (matprod_ok (resize0 (dr A) (dc A - dr A)) A C (resize0_wf _ _)) as (ZM & EZ & WZ & Z1 & Z2 & VZ & _); cbn [dr dc resize0]; try lia.
  rewrite EZ in H. cbn [bind] in H. cbn [dr dc resize0] in Z1, Z2.
  destruct (null_flags_ok (gget ZM) (dr A) (dc A - dr A) (ent ZM)) as (l & El & Ll & Pl); [intros; apply gget_ok; lia|].
  rewrite El in H. cbn [bind] in H.
  destruct (Nat.eqb_spec (count_true l) (dc A - dr A)) as [E|E]; cbn [negb] in H; injection H as <- <-; [|now left].
  right. exists (count_true l), C. split; [reflexivity|]. split; [reflexivity|]. do 3 (split; [lia|]). rewrite E.
  apply (last_columns (dr A) (dc A) (ent A) (ent C) (fun a b => fn (zW z) (dr A + a) (dr A + b))); [assumption|eexists; eauto| |].
  - intros i q Hi Hq. rewrite VC by assumption. rewrite EVT by (unfold N; lia).
    unfold ent at 1. cbn [de]. unfold zgetV. rewrite fn_mtab by (unfold N; lia). f_equal; lia.
  - intros i q Hi Hq. rewrite <- (VZ i q) by lia.
    apply (proj1 (Pl q ltac:(lia))); [|assumption]. apply count_true_all; lia.
Qed.

(** ** nullspace_indirect_decomp *)
Section Indirect.
Context {F Q : Type}.
Variables (fp : fpops F) (rt : rtops F Q).     (* FT, and RT = mpfr_t with FT *)
Variables (fq : fpops Q) (rq : rtops Q Q).     (* mpfr_t alone *)

(** householder(), decomp.cc 652-728: householder(kappa) for all kappa; the full version does not write normB2, which
    nothing reads here, so the model calls the other one *)
Definition ghouseholder_all (d n : nat) (z : fgas Q Q) : res (fgas Q Q) := mfold (ghouseholder fq rq d n) (seq 0 n) z.

(** getR, decomp.cc 850-867 *)
Definition ggetR (d n : nat) (z : fgas Q Q) : mat Q :=
  mtab d n (fun i j => if i <=? j then mget (fzero fq) (gR z) i j else fzero fq).

(** fgasgen(F,A,setprec), nullspace.cc 124-170.  [jB]: the entries B(i,d+k), k <> i, that lines 146-152 do not set.
    The n x (n+d) object is built without residue (dec = 0) and without transformation. *)
Definition fgasgen (J : junk_t (F := Q)) (jB : nat -> nat -> Q) (A : dmat) : res (mat Q) :=
  let d := dr A in let n := dc A in
  guard (d <=? n)
  (let B := mtab n (n + d) (fun i j => if j <? d then tofz rq (mget 0%Z (de A) j i)
                                      else if j =? d + i then tofz rq 1 else jB i j) in
   let* z := ghouseholder_all n (n + d) (new_fgas rq n (n + d) 0 false J B B) in
   let R := ggetR n (n + d) z in
   Ok (mtab (n - d) n (fun i j => mget (fzero fq) R (d + i) (d + j)))).

(** nullspace_indirect_decomp(C,A,setprec), nullspace.cc 175-246.  [gap], [epsilon], [ubound]: parameters set by the
    constructor.  C is written unless the decomposition fails *)
Definition nullspace_indirect (J : junk_t (F := F)) (JQ : junk_t (F := Q)) (jB : nat -> nat -> Q) (gap : F -> bool)
    (epsilon : Q) (ubound : Z) (gamma : F) (fuel : nat) (A : dmat) : res (Z * option dmat) :=
  let d := dr A in let n := dc A in
  let* FF := fgasgen JQ jB A in
  let* (fl, z) := gdecomp fp rt (n - d) n 0 false gap epsilon ubound fuel gamma (Z.of_nat n - Z.of_nat d) (2 ^ 63 - 1)
                    (new_fgas rt (n - d) n 0 false J FF FF) in
  if (fl <? 0)%Z then Ok ((-1)%Z, None)
  else
    let* VT := transpose_to (resize0 n n) (mkD n n (ggetV n z)) in
    let* C := for2 n (n - d) (fun i j M => let* x := gget VT (d + j) i in gset M i j x) (resize0 n (n - d)) in
    let* ZM := matprod (resize0 d (n - d)) A C in
    let* null := null_flags (gget ZM) d (n - d) in
    if negb (count_true null =? n - d) then Ok ((-1)%Z, Some C)
    else Ok (Z.of_nat (count_true null), Some C).

Lemma nullspace_indirect_spec J JQ jB gap epsilon ubound gamma fuel A r oC : dwf A -> 0 < dc A ->
  nullspace_indirect J JQ jB gap epsilon ubound gamma fuel A = Ok (r, oC) ->
  r = (-1)%Z \/
  exists (k : nat) C, r = Z.of_nat k /\ oC = Some C /\ dr C = dc A /\ dc C = k /\ k + dr A = dc A /\
    kernel_vectors (dr A) (dc A) k (ent A) (ent C) /\
    (independent (dc A) (dr A) (mtr (ent A)) -> generates_kernel (dr A) (dc A) k (ent A) (ent C)).
Proof.
  intros WA Hn H. unfold nullspace_indirect in H. cbv zeta in H.
  apply bind_Ok in H as (FF & HF & H). unfold fgasgen in HF. apply guard_Ok in HF as [G _]. apply Nat.leb_le in G.
  apply bind_Ok in H as ([fl z] & HD & H).
  destruct (fl <? 0)%Z; [injection H as <- <-; now left|].
  apply gdecomp_steps in HD as [HS _].
  destruct (xsteps_inv rt (dc A - dr A) (dc A) 0 false mid _ _ HS) as (P & HT).
  { apply id_inv; reflexivity. }
  pose proof (block_unimodular (dc A) 0 false P _ ltac:(lia) HT) as [U1 U2]. cbn [Nat.add] in U1, U2.
  rewrite Nat.sub_0_r in U1, U2.
  destruct (transpose_to_ok (resize0 (dc A) (dc A)) (mkD (dc A) (dc A) (ggetV (dc A) z)) (resize0_wf _ _)) as (VT & EV & WV & V1 & V2 & EVT & _);
    [cbn; lia|cbn; lia|]. rewrite EV in H. cbn [bind dr dc resize0] in H, V1, V2, EVT.
  destruct (for2_simple (dc A) (dc A - dr A) (fun i j M => let* x := gget VT (dr A + j) i in gset M i j x)
     (fun i j => ent VT (dr A + j) i) (resize0 (dc A) (dc A - dr A)) (resize0_wf _ _)) as (C & EC & WC & C1 & C2 & VC & _);
     cbn [dr dc resize0]; try lia.
  { intros i j M Hi Hj _ _ _ _. rewrite gget_ok by lia. reflexivity. }
  rewrite EC in H. cbn [bind] in H. cbn [dr dc resize0] in C1, C2.
  destruct (matprod_ok (resize0 (dr A) (dc A - dr A)) A C (resize0_wf _ _)) as (ZM & EZ & WZ & Z1 & Z2 & VZ & _); cbn [dr dc resize0]; try lia.
  rewrite EZ in H. cbn [bind] in H. cbn [dr dc resize0] in Z1, Z2.
  destruct (null_flags_ok (gget ZM) (dr A) (dc A - dr A) (ent ZM)) as (l & El & Ll & Pl); [intros; apply gget_ok; lia|].
  rewrite El in H. cbn [bind] in H.
  destruct (Nat.eqb_spec (count_true l) (dc A - dr A)) as [E|E]; cbn [negb] in H; injection H as <- <-; [|now left].
  right. exists (count_true l), C. split; [reflexivity|]. split; [reflexivity|]. do 3 (split; [lia|]). rewrite E.
  apply (last_columns (dr A) (dc A) (ent A) (ent C) (fn (xW (gx z)))); [assumption|eexists; eauto| |].
  - intros i q Hi Hq. rewrite VC by assumption. rewrite EVT by lia.
    unfold ent at 1. cbn [de]. unfold ggetV. now rewrite fn_mtab by lia.
  - intros i q Hi Hq. rewrite <- (VZ i q) by lia.
    apply (proj1 (Pl q ltac:(lia))); [|assumption]. apply count_true_all; lia.
Qed.
End Indirect.
