(** * The padding of [SLattice]: from the padded lattice to the lattice of the input; histories of calls *)
From Coq Require Import ZArith Lia List Bool Arith.
From Coq Require Import ZifyBool ZifyNat.
From Verif Require Import Base Spec Mat FP Hlll Hlll2 IntSteps HlllInt LinDep Structure Slll SlllInt.
Import ListNotations.
Local Open Scope Z_scope.

(** a left inverse of a square integer matrix is a right inverse *)
Lemma left_right_inverse d X Y : meq d d (mmul d X Y) mid -> meq d d (mmul d Y X) mid.
Proof.
  intros H.
  assert (XY : forall (c : nat -> Z) i, (i < d)%nat -> sumZ d (fun l => X i l * sumZ d (fun j => Y l j * c j)) = c i).
  { intros c i Hi. rewrite (sumZ_ext d _ (fun l => sumZ d (fun j => X i l * Y l j * c j))).
    2:{ intros l Hl. rewrite <- sumZ_mul_l. apply sumZ_ext. intros; ring. }
    rewrite sumZ_swap. rewrite (sumZ_ext d _ (fun j => mid i j * c j)).
    2:{ intros j Hj. rewrite <- (H i j Hi Hj). unfold mmul. symmetry. rewrite <- sumZ_mul_r. reflexivity. }
    now apply sumZ_mid_l. }
  intros i k Hi Hk.
  destruct (dependent d (S d) (fun r j => if (j =? d)%nat then mid r k else Y r j) ltac:(lia)) as (c & (q & Hq & Nq) & E).
  assert (E' : forall r, (r < d)%nat -> sumZ d (fun j => Y r j * c j) + mid r k * c d = 0).
  { intros r Hr. rewrite <- (E r Hr). cbn [sumZ]. rewrite Nat.eqb_refl. f_equal. apply sumZ_ext. intros j Hj.
    now replace (j =? d)%nat with false by lia. }
  assert (T : c d <> 0).
  { intros T. apply Nq. destruct (Nat.eq_dec q d) as [->|N]; [assumption|].
    rewrite <- (XY c q ltac:(lia)). apply sumZ_0. intros l Hl.
    specialize (E' l Hl). rewrite T in E'. replace (sumZ d (fun j => Y l j * c j)) with 0 by lia. ring. }
  (* (YX e_k)_i * t = - (Y X Y c)_i = - (Y c)_i = mid i k * t *)
  assert (G : c d * mmul d Y X i k = c d * mid i k).
  { transitivity (- sumZ d (fun j => Y i j * c j)); [|specialize (E' i Hi); lia].
    rewrite (sumZ_ext d (fun j => Y i j * c j) (fun j => Y i j * (X j k * - c d))).
    - unfold mmul. rewrite (sumZ_ext d (fun j => Y i j * (X j k * - c d)) (fun j => (- c d) * (Y i j * X j k))) by (intros; ring).
      rewrite sumZ_mul_l. ring.
    - intros j Hj. f_equal. rewrite <- (XY c j Hj).
      rewrite (sumZ_ext d _ (fun l => X j l * mid l k * - c d)).
      2:{ intros l Hl. specialize (E' l Hl). replace (sumZ d (fun j0 => Y l j0 * c j0)) with (- (mid l k * c d)) by lia. ring. }
      rewrite sumZ_mul_r. f_equal. now apply (sumZ_mid_r d k (fun l => X j l)). }
  nia.
Qed.

(** the first d columns of a unimodular matrix that vanish below row d form a unimodular matrix *)
Lemma unimodular_corner d p V : unimodular (d + p) V ->
  (forall i j, (d <= i < d + p)%nat -> (j < d)%nat -> V i j = 0) -> unimodular d V.
Proof.
  intros (W & H1 & H2) Z0. exists W.
  assert (L : meq d d (mmul d W V) mid).
  { intros i j Hi Hj. rewrite <- (H2 i j) by lia. unfold mmul. rewrite sumZ_split.
    rewrite (sumZ_0 p); [ring|]. intros l Hl. rewrite Z0 by lia. ring. }
  split; [now apply left_right_inverse|assumption].
Qed.

(** ** The padded matrix: A, zeros, and [a] times the identity *)
Definition padded (n d : nat) (A : zmat) (a : Z) : zmat := fun i j =>
  if ((i <? n) && (j <? d))%nat%bool then A i j
  else if ((n <=? i) && (j =? d + (i - n)))%nat%bool then a else 0.

Lemma padded_zero_lattice n d A a B V : unimodular d V -> meq n d B (mmul d (padded n d A a) V) -> same_lattice n d A B.
Proof.
  intros UV E. apply (same_lattice_unimodular n d A B V UV). eapply meq_trans; [exact E|].
  apply mmul_ext; [|apply meq_refl]. intros i j Hi Hj. unfold padded.
  now replace ((i <? n) && (j <? d))%nat%bool with true by lia.
Qed.

Lemma padded_mul_top n d p A a V i j : (i < n)%nat -> mmul (d + p) (padded n d A a) V i j = mmul d A V i j.
Proof.
  intros Hi. unfold mmul. rewrite sumZ_split. rewrite (sumZ_0 p).
  2:{ intros l Hl. unfold padded. replace ((i <? n) && (d + l <? d))%nat%bool with false by lia.
      replace (n <=? i)%nat with false by lia. cbn [andb]. ring. }
  rewrite Z.add_0_r. apply sumZ_ext. intros l Hl. unfold padded.
  now replace ((i <? n) && (l <? d))%nat%bool with true by lia.
Qed.

Lemma padded_mul_bottom n d p A a V i j : (i < p)%nat -> mmul (d + p) (padded n d A a) V (n + i)%nat j = a * V (d + i)%nat j.
Proof.
  intros Hi. unfold mmul. rewrite (sumZ_single (d + p) (d + i)); [|lia|].
  - unfold padded. replace ((n + i <? n) && (d + i <? d))%nat%bool with false by lia.
    now replace ((n <=? n + i) && (d + i =? d + (n + i - n)))%nat%bool with true by lia.
  - intros l Hl N. unfold padded. replace (n + i <? n)%nat with false by lia. cbn [andb].
    replace ((n <=? n + i) && (l =? d + (n + i - n)))%nat%bool with false by lia. ring.
Qed.

Lemma padded_lattice n d p A a B V : unimodular (d + p) V ->
  meq (n + p) (d + p) B (mmul (d + p) (padded n d A a) V) ->
  (p = 0%nat \/ (a <> 0 /\ forall i j, (n <= i < n + p)%nat -> (j < d)%nat -> B i j = 0)) ->
  same_lattice n d A B.
Proof.
  intros UV E C.
  assert (UV' : unimodular d V).
  { apply (unimodular_corner d p); [assumption|]. intros i j Hi Hj. destruct C as [->|[Na Z0]]; [lia|].
    pose proof (padded_mul_bottom n d p A a V (i - d) j ltac:(lia)) as X.
    rewrite <- E in X by lia. rewrite Z0 in X by lia. replace (d + (i - d))%nat with i in X by lia. nia. }
  apply (same_lattice_unimodular n d A B V UV'). intros i j Hi Hj. rewrite E by lia. now apply padded_mul_top.
Qed.

(** the padding rows of any basis of the padded lattice are multiples of [a] *)
Lemma padded_bottom_multiple n d p A a B V : meq (n + p) (d + p) B (mmul (d + p) (padded n d A a) V) ->
  forall i j, (n <= i < n + p)%nat -> (j < d + p)%nat -> (a | B i j).
Proof.
  intros E i j Hi Hj. rewrite E by lia. replace i with (n + (i - n))%nat by lia. rewrite padded_mul_bottom by lia.
  apply Z.divide_factor_l.
Qed.

(** ** Histories of calls on an [SLattice] object *)
Section Hist.
Context {F : Type} (fp : fpops F) (f0001 f501 fgap : F) (fmul2 : F -> Z -> F).
Hypothesis EX : expo_nonneg fp.

Inductive scall :=
| SHlll (fuel : nat) (delta junk : F) (Jb : nat -> nat -> junk_t (F := F)) (S : nat) (lovmax : Z)
| SRotate (g : nat).

Definition sexec (q : scall) (L : slattice F) : res (slattice F) :=
  match q with
  | SHlll fuel delta junk Jb Sg lovmax =>
      let* (_, L') := slll fp f0001 f501 fgap fmul2 fuel delta junk Jb Sg lovmax L in Ok L'
  | SRotate g => sl_rotate g L
  end.
Definition srun (qs : list scall) (L : slattice F) : res (slattice F) := mfold sexec qs L.

(** rotate *)
Definition rot (g q : nat) : nat := if (q =? 0)%nat then (g - 1)%nat else if (q <? g)%nat then (q - 1)%nat else q.
Definition rotm (g : nat) : zmat := fun i j => mid i (rot g j).

Lemma mmul_rotm d g A i j : (1 <= g <= d)%nat -> (j < d)%nat -> mmul d A (rotm g) i j = A i (rot g j).
Proof using Type.
  clear fp f0001 f501 fgap fmul2 EX.
  intros Hg Hj. unfold mmul, rotm. apply (sumZ_mid_r d _ (fun l => A i l)). unfold rot.
  destruct (Nat.eqb_spec j 0); [lia|]. destruct (Nat.ltb_spec j g); lia.
Qed.

Definition unrot (g q : nat) : nat := if (q <? g - 1)%nat then (q + 1)%nat else if (q =? g - 1)%nat then 0%nat else q.

Lemma unimodular_rotm d g : (1 <= g <= d)%nat -> unimodular d (rotm g).
Proof using Type.
  clear fp f0001 f501 fgap fmul2 EX.
  intros Hg. exists (fun i j => mid (rot g i) j).
  assert (R : forall j, (j < d)%nat -> (rot g j < d)%nat).
  { intros j Hj. unfold rot. destruct (Nat.eqb_spec j 0); [lia|]. destruct (Nat.ltb_spec j g); lia. }
  assert (U : forall j, (j < d)%nat -> (unrot g j < d)%nat /\ rot g (unrot g j) = j).
  { intros j Hj. unfold rot, unrot. destruct (Nat.ltb_spec j (g - 1)).
    - split; [lia|]. replace (j + 1 =? 0)%nat with false by lia. replace (j + 1 <? g)%nat with true by lia. lia.
    - destruct (Nat.eqb_spec j (g - 1)).
      + split; [lia|]. cbn. lia.
      + split; [lia|]. replace (j =? 0)%nat with false by lia. now replace (j <? g)%nat with false by lia. }
  assert (I : forall a b, rot g a = rot g b -> a = b).
  { intros a b. unfold rot. destruct (Nat.eqb_spec a 0), (Nat.eqb_spec b 0);
      destruct (Nat.ltb_spec a g), (Nat.ltb_spec b g); lia. }
  split; intros i j Hi Hj.
  - unfold mmul, rotm. destruct (U i Hi) as [U1 U2]. rewrite (sumZ_single d (unrot g i)); [|assumption|].
    + rewrite U2, mid_eq. ring.
    + intros l Hl N. rewrite (mid_neq i); [ring|]. intros E. apply N. apply I. now rewrite U2.
  - unfold mmul, rotm. rewrite (sumZ_single d (rot g i)); [|now apply R|].
    + rewrite mid_eq. unfold mid. destruct (Nat.eqb_spec i j) as [->|N]; [now rewrite Nat.eqb_refl|].
      destruct (Nat.eqb_spec (rot g i) (rot g j)) as [E|E]; [|ring]. elim N. now apply I.
    + intros l Hl N. rewrite (mid_neq (rot g i) l) by congruence. ring.
Qed.

Lemma rotate_fn g (L L' : slattice F) : sl_rotate g L = Ok L' -> wfm (cn (scfg L)) (cd (scfg L)) (iB (si L)) ->
  (1 <= g <= cd (scfg L))%nat /\ scfg L' = scfg L /\ snorig L' = snorig L /\ sdorig L' = sdorig L /\ samax L' = samax L /\
  iS (si L') = iS (si L) /\ iU (si L') = iU (si L) /\ wfm (cn (scfg L)) (cd (scfg L)) (iB (si L')) /\
  forall i j, (i < cn (scfg L))%nat -> (j < cd (scfg L))%nat -> fn (iB (si L')) i j = fn (iB (si L)) i (rot g j).
Proof using Type.
  clear fp f0001 f501 fgap fmul2 EX.
  intros H W. unfold sl_rotate in H. binv H. binv H. apply Okinj in H. subst L'. cbn [scfg snorig sdorig samax si iB iU iS].
  set (n := cn (scfg L)) in *. set (d := cd (scfg L)) in *.
  split; [lia|]. do 6 (split; [reflexivity|]). split; [apply mtab_wfm|].
  intros i j Hi Hj. rewrite fn_mtab by assumption. unfold rot.
  destruct (Nat.eqb_spec j 0) as [->|N]; [reflexivity|].
  (* after the moves for columns g-1 .. m *)
  assert (G : forall m B B', (m <= g - 1)%nat ->
     mfold (fun j B => Ok (mtab n d (fun i q => if (q =? j)%nat then fn B i (j - 1)%nat else fn B i q))) (rev (seq 1 m)) B = Ok B' ->
     forall i j, (i < n)%nat -> (1 <= j < d)%nat -> fn B' i j = if (j <=? m)%nat then fn B i (j - 1)%nat else fn B i j).
  { induction m as [|m IH]; intros B B' Hm HB i0 j0 Hi0 Hj0.
    - cbn in HB. injection HB as <-. replace (j0 <=? 0)%nat with false by lia. reflexivity.
    - rewrite seq_S, rev_app_distr in HB. cbn [rev app mfold bind] in HB.
      rewrite (IH _ _ ltac:(lia) HB i0 j0 Hi0 Hj0). rewrite !fn_mtab by lia.
      destruct (Nat.leb_spec j0 m); destruct (Nat.leb_spec j0 (S m)); try lia;
        repeat match goal with |- context [(?x =? ?y)%nat] => destruct (Nat.eqb_spec x y) end; try lia; try reflexivity.
      f_equal. lia. }
  rewrite (G (g - 1)%nat _ _ ltac:(lia) Ha i j Hi ltac:(lia)).
  destruct (Nat.leb_spec j (g - 1)), (Nat.ltb_spec j g); try lia; reflexivity.
Qed.

Lemma sexec_int P q L L' : sobj P L -> sexec q L = Ok L' ->
  sobj P L' /\ scfg L' = scfg L /\ snorig L' = snorig L /\ sdorig L' = sdorig L /\ samax L' = samax L.
Proof.
  intros Hs H. destruct q as [fuel delta junk Jb S lovmax|g]; cbn [sexec] in H.
  - binv H. destruct a as [g1 L1]. injection H as <-. eapply slll_int; eauto.
  - destruct Hs as (r & Hs). destruct (rotate_fn g L L' H) as (Hg & E1 & E2 & E3 & E4 & E5 & E6 & W & E); [apply Hs|].
    split; [|auto]. exists r. rewrite E1.
    replace (si L') with (mkI (iB (si L')) (iU (si L')) (iS (si L))) by (rewrite <- E5; now destruct (si L')).
    apply (sinv_mul (scfg L) P r (si L) _ _ (rotm g)); auto.
    + now apply unimodular_rotm.
    + intros i j Hi Hj. rewrite E by assumption. now rewrite mmul_rotm by assumption.
Qed.

Lemma srun_int P qs L L' : sobj P L -> srun qs L = Ok L' ->
  sobj P L' /\ scfg L' = scfg L /\ snorig L' = snorig L /\ sdorig L' = sdorig L /\ samax L' = samax L.
Proof.
  unfold srun. revert L. induction qs as [|q qs IH]; intros L Hs H; cbn [mfold] in H.
  - injection H as <-. auto.
  - binv H. destruct (sexec_int P q L a Hs Ha) as (H1 & H2 & H3 & H4 & H5).
    destruct (IH a H1 H) as (K1 & K2 & K3 & K4 & K5). repeat split; try congruence; assumption.
Qed.

(** the whole basis of the object *)
Theorem slattice_padded J n d A S forU m lg vd L0 qs L :
  new_slattice fp J n d A S forU m lg vd = Ok L0 -> srun qs L0 = Ok L ->
  exists V, unimodular (d + pad_dim d (2 * S)) V /\
    meq (n + pad_dim d (2 * S)) (d + pad_dim d (2 * S)) (fn (iB (si L)))
        (mmul (d + pad_dim d (2 * S)) (padded n d (fn A) (samax L0)) V) /\
    snorig L = n /\ sdorig L = d /\ scfg L = scfg L0.
Proof.
  intros H R. pose proof (new_slattice_sobj fp J n d A S forU m lg vd L0 H) as Hs.
  destruct (new_slattice_int fp J n d A S forU m lg vd L0 H) as (E1 & E2 & E3 & E4 & E5).
  set (p := pad_dim d (2 * S)) in *.
  destruct (srun_int _ qs L0 L Hs R) as ((r & Hb & _ & V & UV & EV) & K2 & K3 & K4 & K5).
  rewrite K2, E1 in *. cbn [cn cd] in UV, EV.
  exists V. split; [assumption|]. split; [|repeat split; congruence].
  eapply meq_trans; [exact EV|]. apply mmul_ext; [|apply meq_refl].
  intros i j Hi Hj. rewrite E5 by assumption. reflexivity.
Qed.

Lemma sl_getbase_fn (L : slattice F) : meq (snorig L) (sdorig L) (fn (sl_getbase L)) (fn (iB (si L))).
Proof. apply fn_mtab. Qed.

Lemma max_abs_zero n d A : max_abs n d A = 0 -> forall i j, (i < n)%nat -> (j < d)%nat -> fn A i j = 0.
Proof.
  unfold max_abs.
  assert (In1 : forall i js m, m <= fold_left (fun m j => Z.max m (Z.abs (fn A i j))) js m /\
     forall j, In j js -> Z.abs (fn A i j) <= fold_left (fun m j => Z.max m (Z.abs (fn A i j))) js m).
  { intros i. induction js as [|j js IH]; intros m; cbn [fold_left]; [split; [lia|intros j []]|].
    destruct (IH (Z.max m (Z.abs (fn A i j)))) as [H1 H2]. split; [lia|]. intros q [->|Hq]; [lia|auto]. }
  assert (In2 : forall is m, m <= fold_left (fun m i => fold_left (fun m j => Z.max m (Z.abs (fn A i j))) (seq 0 d) m) is m /\
     forall i j, In i is -> (j < d)%nat -> Z.abs (fn A i j) <= fold_left (fun m i => fold_left (fun m j => Z.max m (Z.abs (fn A i j))) (seq 0 d) m) is m).
  { induction is as [|i is IH]; intros m; cbn [fold_left]; [split; [lia|intros i j []]|].
    destruct (IH (fold_left (fun m j => Z.max m (Z.abs (fn A i j))) (seq 0 d) m)) as [H1 H2].
    destruct (In1 i (seq 0 d) m) as [H3 H4].
    split; [lia|]. intros q j [->|Hq] Hj; [|now apply H2]. specialize (H4 j ltac:(apply in_seq; lia)). lia. }
  intros H i j Hi Hj. destruct (In2 (seq 0 n) 0) as [_ G]. specialize (G i j ltac:(apply in_seq; lia) Hj). lia.
Qed.

(** when 2S divides d, or the padding rows of the first d columns are still zero: the lattice of the input *)
Theorem slattice_lattice J n d A S forU m lg vd L0 qs L :
  new_slattice fp J n d A S forU m lg vd = Ok L0 -> srun qs L0 = Ok L ->
  (d mod (2 * S) = 0)%nat \/ (forall i j, (n <= i < n + pad_dim d (2 * S))%nat -> (j < d)%nat -> fn (iB (si L)) i j = 0) ->
  same_lattice n d (fn A) (fn (sl_getbase L)).
Proof.
  intros H R C. destruct (slattice_padded J n d A S forU m lg vd L0 qs L H R) as (V & UV & EV & E1 & E2 & E3).
  destruct (new_slattice_int fp J n d A S forU m lg vd L0 H) as (_ & _ & _ & E4 & _).
  eapply same_lattice_trans.
  2:{ apply same_lattice_ext. rewrite <- E1, <- E2. apply meq_sym, sl_getbase_fn. }
  set (p := pad_dim d (2 * S)) in *.
  destruct (Z.eq_dec (samax L0) 0) as [Za|Na].
  - (* all entries of A are zero, or there is no padding *)
    destruct (Nat.eq_dec p 0) as [Ep|Np].
    + apply (padded_lattice n d p (fn A) (samax L0) _ V UV EV). now left.
    + replace (p =? 0)%nat with false in E4 by lia.
      destruct (Nat.eq_dec d 0) as [->|Nd].
      { apply same_lattice_ext. intros i j _ Hj. lia. }
      assert (M : max_abs n d A = 0) by nia.
      apply same_lattice_ext. intros i j Hi Hj. rewrite EV by lia. rewrite padded_mul_top by assumption.
      rewrite (max_abs_zero n d A M i j Hi Hj). symmetry. unfold mmul. apply sumZ_0. intros l Hl.
      rewrite (max_abs_zero n d A M i l Hi Hl). ring.
  - apply (padded_lattice n d p (fn A) (samax L0) _ V UV EV).
    destruct C as [C|C]; [left|right; auto]. unfold p, pad_dim. now rewrite C.
Qed.

End Hist.
