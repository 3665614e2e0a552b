(** * Reuse of orthogonalisation data is transparent: whole calls *)
From Coq Require Import ZArith Lia List Bool Arith.
From Verif Require Import Base Spec Mat FP Hlll Hlll2 IntSteps HlllInt Structure Object Safety Fresh Cache Cache2 Cache3 Cache4 Cache5.
Import ListNotations.

(** ** What "same outcome" means for two calls *)
Section Same.
Context {F : Type} (fp : fpops F).

(** the two calls end in the same way; if they return, they return the same value
    and leave objects with the same base, transformation and counters, and - when
    the reduction ran to its end - the same R factor *)
Definition same_outcome (a b : res (Z * lattice F)) : Prop :=
  match a, b with
  | Ok (r, L), Ok (r', L') =>
      r = r' /\ getbase L = getbase L' /\ getU L = getU L' /\
      nblov (lc L) = nblov (lc L') /\ nbswaps (lc L) = nbswaps (lc L') /\
      (2 <= cd (lcfg L) -> r = 0%Z -> (nblov (lc L) < cnblov_max (lcfg L))%Z ->
       forall junk, getR fp junk L = getR fp junk L')
  | UB, UB => True
  | NoFuel, NoFuel => True
  | _, _ => False
  end.

End Same.

(** the last non-zero row of the matrix meets the first column *)
Definition first_reaches (n d : nat) (A : zmat) : Prop :=
  exists r, (r < n)%nat /\ A r 0%nat <> 0%Z /\
    forall i j, (r < i < n)%nat -> (j < d)%nat -> A i j = 0%Z.

Section Top.
Context {F : Type} (fp : fpops F).
Hypothesis EX : expo_nonneg fp.

Lemma reset_kept c (f : fst_ F) j : length (fkept f) = cd c + 1 -> j < cd c -> ~ kept (hlll_reset c f) j.
Proof.
  intros L H. unfold kept, hlll_reset. cbn [set_desc set_kept fkept fdesc].
  rewrite nth_imap with (da := false) by lia. replace (j <? cd c) with true by (symmetry; now apply Nat.ltb_lt). discriminate.
Qed.

Lemma reset_desc c (f : fst_ F) j : nth j (fdesc (hlll_reset c f)) 0 = 0.
Proof.
  unfold hlll_reset. cbn [set_desc set_kept fkept fdesc].
  generalize (fdesc f). intros l. revert j. induction l as [|a l IH]; intros [|j]; cbn; auto.
Qed.

(** the whole loop, from the state hlll starts with *)
Lemma loop_vs_ref c hr s f g fuel delta vb junk junk' q : hr_sim fp c hr -> ckmax c = cd c ->
  sgood c s -> fwf c (set_nmax 0 f) -> gwf c g -> relx c f g ->
  (const_struct c s \/ (zero_laws fp /\ (forall j i, j < cd c -> nth j (iS s) 0 <= i < cn c -> mget (fzero fp) (fBfp f) i j = fzero fp))) ->
  rsim (finrel fp c) (hlll_loop_g fp c hr fuel delta vb s (hlll_reset c f) 1 (-1)%Z (repeat junk (cd c)) q)
       (hlll_loop_g fp c (hr_ref fp) fuel delta vb s g 1 (-1)%Z (repeat junk' (cd c)) q).
Proof.
  intros HS CK G W Wg X Z.
  pose proof (w_kept _ _ W) as LK. cbn [set_nmax fkept] in LK.
  apply hlll_loop_sim; auto.
  - split.
    + exact (fwf_reset _ _ W).
    + intros N; now contradiction N.
    + intros N; now contradiction N.
    + intros j Hj K. now apply reset_kept in K.
    + intros N; now contradiction N.
    + intros N; now contradiction N.
    + intros j Hj _. apply reset_desc.
    + destruct Z as [Z|[Z1 Z2]]; [now left|right]. split; [assumption|]. split; [exact Z2|].
      intros k i Hk. unfold lim in Hk. cbn in Hk. lia.
  - split; auto; intros; unfold lim in *; cbn [Nat.eqb] in *; intros ? ?; lia.
  - split; [apply repeat_length|]. split; [apply repeat_length|]. split; intros; lia.
Qed.

(** the object hlll_g starts from: everything the outcome may depend on *)
Definition ready (L : lattice F) : Prop :=
  ckmax (lcfg L) = cd (lcfg L) /\ sgood (lcfg L) (li L) /\ fwf (lcfg L) (set_nmax 0 (lf L)) /\
  (const_struct (lcfg L) (li L) \/
   (zero_laws fp /\ (forall j i, j < cd (lcfg L) -> nth j (iS (li L)) 0 <= i < cn (lcfg L) ->
      mget (fzero fp) (fBfp (lf L)) i j = fzero fp))).

Lemma getR_agree c s (f f' : fst_ F) q q' junk : sgood c s -> agree fp (iS s) (cd c) (fR f) (fR f') ->
  getR fp junk (mkL c s f q) = getR fp junk (mkL c s f' q').
Proof.
  intros G A. unfold getR. cbn [lcfg lf]. unfold mtab. apply map_ext_in. intros j Hj. apply in_seq in Hj.
  apply map_ext_in. intros i Hi. apply in_seq in Hi.
  destruct (Nat.ltb_spec j i); auto. destruct (Nat.ltb_spec i (min (cn c) (cd c))); auto.
  pose proof (g_gt c s G j ltac:(lia)). apply A; lia.
Qed.

Lemma finrel_trans c x y z : finrel fp c x z -> finrel fp c y z ->
  same_outcome fp (let '(r, s, f, q') := x in Ok (r, mkL c s f q')) (let '(r, s, f, q') := y in Ok (r, mkL c s f q')).
Proof.
  destruct x as [[[r1 s1] f1] q1], y as [[[r2 s2] f2] q2], z as [[[r3 s3] f3] q3]. cbn.
  intros (-> & -> & -> & G & R1) (-> & -> & -> & _ & R2). unfold getbase, getU. cbn [lcfg li lc].
  do 5 (split; [reflexivity|]). intros D E B junk. apply getR_agree; auto.
  intros j i Hj Hi. destruct (R1 D E B) as (R1' & _), (R2 D E B) as (R2' & _). rewrite R1', R2'; auto.
Qed.

Lemma hlll_g_same hr1 hr2 L1 L2 fuel delta vb j1 j2 :
  lcfg L1 = lcfg L2 -> li L1 = li L2 -> lc L1 = lc L2 ->
  hr_sim fp (lcfg L1) hr1 -> hr_sim fp (lcfg L1) hr2 -> ready L1 -> ready L2 ->
  relx (lcfg L1) (lf L1) (lf L2) ->
  same_outcome fp (hlll_g fp hr1 fuel delta vb j1 L1) (hlll_g fp hr2 fuel delta vb j2 L2).
Proof.
  intros Ec Es Eq S1 S2 (CK & G & W1 & Z1) (_ & _ & W2 & Z2) X. unfold hlll_g.
  rewrite <- Ec, <- Es, <- Eq in *.
  assert (Wg : gwf (lcfg L1) (lf L1)) by (destruct W1; split; assumption).
  assert (X1 : relx (lcfg L1) (lf L1) (lf L1)) by (right; right; reflexivity).
  assert (X2 : relx (lcfg L1) (lf L2) (lf L1)) by (destruct X as [X|[X|X]]; [now left|right; now left|right; right; now symmetry]).
  set (q0 := if vb then _ else _).
  pose proof (loop_vs_ref (lcfg L1) hr1 (li L1) (lf L1) (lf L1) fuel delta vb j1 j1 q0 S1 CK G W1 Wg X1 Z1) as A1.
  pose proof (loop_vs_ref (lcfg L1) hr2 (li L1) (lf L2) (lf L1) fuel delta vb j2 j1 q0 S2 CK G W2 Wg X2 Z2) as A2.
  destruct (hlll_loop_g fp (lcfg L1) hr1 fuel delta vb (li L1) _ 1 _ _ _) as [x| |];
    destruct (hlll_loop_g fp (lcfg L1) (hr_ref fp) fuel delta vb (li L1) _ 1 _ _ _) as [z| |]; try contradiction;
    destruct (hlll_loop_g fp (lcfg L1) hr2 fuel delta vb (li L1) _ 1 _ _ _) as [y| |]; try contradiction; try exact I.
  cbn [rsim] in *. pose proof (finrel_trans (lcfg L1) x y z) as T.
  destruct x as [[[r1 s1] f1] q1], y as [[[r2 s2] f2] q2]. apply T; auto.
Qed.

Lemma hlll_g_ref hr L fuel delta vb junk : hr_sim fp (lcfg L) hr -> ready L ->
  same_outcome fp (hlll_g fp hr fuel delta vb junk L) (hlll_g fp (hr_ref fp) fuel delta vb junk L).
Proof.
  intros S1 (CK & G & W1 & Z1). unfold hlll_g. set (q0 := if vb then _ else _).
  assert (Wg : gwf (lcfg L) (hlll_reset (lcfg L) (lf L))) by (destruct W1; split; assumption).
  assert (X1 : relx (lcfg L) (lf L) (hlll_reset (lcfg L) (lf L))) by (right; right; reflexivity).
  pose proof (loop_vs_ref (lcfg L) hr (li L) (lf L) _ fuel delta vb junk junk q0 S1 CK G W1 Wg X1 Z1) as A1.
  destruct (hlll_loop_g fp (lcfg L) hr fuel delta vb (li L) _ 1 _ _ _) as [[[[r s] f] q]| |];
    destruct (hlll_loop_g fp (lcfg L) (hr_ref fp) fuel delta vb (li L) _ 1 _ _ _) as [[[[r' s'] f'] q']| |]; try contradiction; try exact I.
  cbn [rsim finrel] in A1. destruct A1 as (-> & -> & -> & G' & R1). cbn [bind same_outcome].
  unfold getbase, getU. cbn [lcfg li lc]. do 5 (split; [reflexivity|]). intros D E B jk. apply getR_agree; auto. now apply R1.
Qed.

End Top.
