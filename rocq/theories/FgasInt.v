(** * FgasInt: the integer invariant of decomp, and exact RT arithmetic *)
From Coq Require Import ZArith Lia List Bool Arith Reals Lra.
From Verif Require Import Base Spec SpecReal Mat FP Hlll IntSteps HlllInt LinDep Structure ZFgas Fgas.
Import ListNotations.
Local Open Scope nat_scope.

Lemma Okinj {A} (a b : A) : Ok a = Ok b -> a = b.
Proof. congruence. Qed.

Section Inv.
Context {F T : Type} (fp : fpops F) (rt : rtops F T).
Variables (d n dec : nat) (transf : bool).
Notation xcol := (@xcol F T rt d n dec transf).
Notation xswap := (@xswap F T rt d n dec transf).
Notation keepU := (keepU dec transf).
Notation xsteps := (@xsteps F T rt d n dec transf).
Notation xstep := (@xstep F T rt d n dec transf).

(** [P]: the transformation so far; W is its inverse transpose; both are zero in the lower left block *)
Definition tinv (P : zmat) (x : gex T) : Prop :=
  wfm n n (xW x) /\ (keepU = true -> wfm n n (xU x)) /\
  meq n n (mmul n P (mtr (fn (xW x)))) mid /\ meq n n (mmul n (mtr (fn (xW x))) P) mid /\
  (keepU = true -> meq n n (fn (xU x)) P) /\
  (forall r s, dec <= r < n -> s < dec -> P r s = 0%Z /\ fn (xW x) s r = 0%Z).

Lemma xcol_inv P kappa i xz x x' : i < kappa -> xcol kappa i xz x = Ok x' -> tinv P x ->
  i < n /\ kappa < n /\ tinv (mmul n P (elem_add i kappa (- xz))) x'.
Proof.
  intros N H I. unfold Fgas.xcol in H. cbv zeta in H. apply guard_Ok in H as [G H]. apply andb_true_iff in G as [Hi Hk].
  apply Nat.ltb_lt in Hi, Hk. binv H. apply Okinj in H. subst x'. clear Ha. split; [exact Hi|]. split; [exact Hk|].
  destruct I as (W1 & W2 & I1 & I2 & EU & Z0). unfold tinv. cbn [xW xU].
  assert (ZF : forall r, zero_from n (xW x) r n) by (intros r p Hp; lia).
  assert (ZU : forall r, zero_from n (xU x) r n) by (intros r p Hp; lia).
  assert (EE : meq n n (mmul n (elem_add i kappa (- xz)) (elem_add i kappa xz)) mid /\
               meq n n (mmul n (elem_add i kappa xz) (elem_add i kappa (- xz))) mid).
  { assert (N' : i <> kappa) by lia. apply Nat.eqb_neq in N'.
    split; intros p q Hp Hq; rewrite mmul_elem_add by assumption; unfold elem_add;
      rewrite N', andb_false_r, Z.add_0_r;
      destruct (Nat.eqb q kappa) eqn:Ej; rewrite ?andb_false_r, ?andb_true_r; cbn; try ring;
      unfold mid; destruct (Nat.eqb p i) eqn:E; ring. }
  destruct EE as [E1 E2].
  set (W' := colop 0%Z (redf (- xz)) 0 n (xW x) i kappa).
  assert (HW : meq n n (mtr (fn W')) (mmul n (elem_add i kappa xz) (mtr (fn (xW x))))).
  { intros p q Hp Hq. change (mtr (fn W') p q) with (fn W' q p). unfold W'.
    rewrite (red_mmul n n (xW x) i kappa (- xz)%Z n W1 Hk Hi (ZF kappa) q p Hq Hp).
    rewrite Z.opp_involutive. unfold mmul, mtr. apply sumZ_ext. intros l Hl.
    unfold elem_add, mid. rewrite (Nat.eqb_sym p l), (andb_comm (l =? kappa)%nat). ring. }
  split; [now apply wfm_colop|].
  split; [intros K; rewrite K; apply wfm_colop; auto|].
  split; [|split; [|split]].
  - intros p q Hp Hq.
    transitivity (mmul n (mmul n P (elem_add i kappa (- xz))) (mmul n (elem_add i kappa xz) (mtr (fn (xW x)))) p q).
    { apply (mmul_ext n n n); try assumption. apply meq_refl. }
    rewrite mmul_assoc. transitivity (mmul n P (mtr (fn (xW x))) p q); [|now apply I1].
    apply (mmul_ext n n n); try assumption; [apply meq_refl|].
    intros k l Hk' Hl'. rewrite <- mmul_assoc.
    transitivity (mmul n mid (mtr (fn (xW x))) k l); [apply (mmul_ext n n n); try assumption; apply meq_refl|].
    now apply (mmul_id_l n n).
  - intros p q Hp Hq.
    transitivity (mmul n (mmul n (elem_add i kappa xz) (mtr (fn (xW x)))) (mmul n P (elem_add i kappa (- xz))) p q).
    { apply (mmul_ext n n n); try assumption. apply meq_refl. }
    rewrite mmul_assoc. transitivity (mmul n (elem_add i kappa xz) (elem_add i kappa (- xz)) p q); [|now apply E2].
    apply (mmul_ext n n n); try assumption; [apply meq_refl|].
    intros k l Hk' Hl'. rewrite <- mmul_assoc.
    transitivity (mmul n mid (elem_add i kappa (- xz)) k l); [apply (mmul_ext n n n); try assumption; apply meq_refl|].
    now apply (mmul_id_l n n).
  - intros K. rewrite K. intros p q Hp Hq.
    rewrite (red_mmul n n (xU x) kappa i xz n (W2 K) Hi Hk (ZU i) p q Hp Hq).
    apply (mmul_ext n n n); try assumption; [now apply EU|apply meq_refl].
  - intros r s Hr Hs. split.
    + rewrite mmul_elem_add by lia. destruct (Z0 r s Hr Hs) as [-> _].
      destruct (Nat.eqb_spec s kappa) as [->|]; [|ring].
      destruct (Z0 r i Hr) as [-> _]; [lia|]. ring.
    + unfold W', fn. rewrite (mget_colop 0%Z _ n n) by (try assumption; lia).
      destruct (Z0 r s Hr Hs) as [_ Zs]. unfold fn in Zs. cbn [Nat.leb].
      destruct (Nat.eqb_spec r i) as [->|]; cbn [andb]; [|exact Zs].
      destruct (Nat.ltb_spec s (0 + n)); [|exact Zs]. unfold redf.
      destruct (Z0 kappa s) as [_ Zk]; [lia|exact Hs|]. unfold fn in Zk. rewrite Zs, Zk. ring.
Qed.

Lemma swap_swap p q : p < n -> q < n -> meq n n (mmul n (elem_swap p q) (elem_swap p q)) mid.
Proof.
  intros Hp Hq i j Hi Hj. rewrite mmul_elem_swap by assumption. unfold elem_swap. f_equal.
  destruct (Nat.eqb_spec j p) as [->|N1].
  - rewrite Nat.eqb_refl. destruct (Nat.eqb_spec q p) as [->|]; reflexivity.
  - destruct (Nat.eqb_spec j q) as [->|N2].
    + now rewrite Nat.eqb_refl.
    + apply Nat.eqb_neq in N1, N2. now rewrite N1, N2.
Qed.

Lemma xswap_inv P p q x x' : xswap p q x = Ok x' -> tinv P x ->
  p < n /\ q < n /\ (0 < dec -> dec <= p /\ dec <= q) /\ tinv (mmul n P (elem_swap p q)) x'.
Proof.
  intros H I. unfold Fgas.xswap in H. apply guard_Ok in H as [G H]. apply andb_true_iff in G as [Hp Hq].
  apply Nat.ltb_lt in Hp, Hq. binv H. apply Okinj in H. subst x'. rename a into Yn. split; [exact Hp|]. split; [exact Hq|].
  assert (D : 0 < dec -> dec <= p /\ dec <= q).
  { intros D. apply Nat.ltb_lt in D. rewrite D in Ha. apply guard_Ok in Ha as [G _].
    apply andb_true_iff in G as [G1 G2]. apply Nat.leb_le in G1, G2. auto. }
  split; [exact D|]. clear Ha.
  destruct I as (W1 & W2 & I1 & I2 & EU & Z0). unfold tinv. cbn [xW xU].
  pose proof (swap_swap p q Hp Hq) as SS.
  set (W' := colswap (xW x) p q).
  assert (ST : forall a b, elem_swap p q a b = elem_swap p q b a).
  { intros a b. unfold elem_swap, mid.
    destruct (Nat.eqb_spec b p), (Nat.eqb_spec b q), (Nat.eqb_spec a p), (Nat.eqb_spec a q);
      repeat match goal with |- context [if ?x =? ?y then _ else _] => destruct (Nat.eqb_spec x y) end;
      subst; try congruence; try reflexivity; try lia. }
  assert (HW : meq n n (mtr (fn W')) (mmul n (elem_swap p q) (mtr (fn (xW x))))).
  { intros a b Ha Hb. change (mtr (fn W') a b) with (fn W' b a). unfold W'.
    rewrite (swap_mmul n n (xW x) p q W1 Hp Hq b a Hb Ha).
    unfold mmul, mtr. apply sumZ_ext. intros l Hl. rewrite (ST a l). ring. }
  split; [now apply wfm_colswap|].
  split; [intros K; rewrite K; apply wfm_colswap; auto|].
  split; [|split; [|split]].
  - intros a b Ha Hb.
    transitivity (mmul n (mmul n P (elem_swap p q)) (mmul n (elem_swap p q) (mtr (fn (xW x)))) a b).
    { apply (mmul_ext n n n); try assumption. apply meq_refl. }
    rewrite mmul_assoc. transitivity (mmul n P (mtr (fn (xW x))) a b); [|now apply I1].
    apply (mmul_ext n n n); try assumption; [apply meq_refl|].
    intros k l Hk' Hl'. rewrite <- mmul_assoc.
    transitivity (mmul n mid (mtr (fn (xW x))) k l); [apply (mmul_ext n n n); try assumption; apply meq_refl|].
    now apply (mmul_id_l n n).
  - intros a b Ha Hb.
    transitivity (mmul n (mmul n (elem_swap p q) (mtr (fn (xW x)))) (mmul n P (elem_swap p q)) a b).
    { apply (mmul_ext n n n); try assumption. apply meq_refl. }
    rewrite mmul_assoc. transitivity (mmul n (elem_swap p q) (elem_swap p q) a b); [|now apply SS].
    apply (mmul_ext n n n); try assumption; [apply meq_refl|].
    intros k l Hk' Hl'. rewrite <- mmul_assoc.
    transitivity (mmul n mid (elem_swap p q) k l); [apply (mmul_ext n n n); try assumption; apply meq_refl|].
    now apply (mmul_id_l n n).
  - intros K. rewrite K. intros a b Ha Hb.
    rewrite (swap_mmul n n (xU x) p q (W2 K) Hp Hq a b Ha Hb).
    apply (mmul_ext n n n); try assumption; [now apply EU|apply meq_refl].
  - intros r s Hr Hs. destruct (D ltac:(lia)) as [D1 D2]. split.
    + rewrite mmul_elem_swap by lia.
      destruct (Nat.eqb_spec s p); [lia|]. destruct (Nat.eqb_spec s q); [lia|]. now apply Z0.
    + unfold W', fn. rewrite (mget_colswap 0%Z n n) by (try assumption; lia).
      destruct (Nat.eqb_spec r p); [apply Z0; lia|]. destruct (Nat.eqb_spec r q); [apply Z0; lia|]. apply Z0; lia.
Qed.

Lemma xstep_inv P x x' : xstep x x' -> tinv P x -> exists P', tinv P' x'.
Proof.
  intros H I. destruct H as [kappa i xz x x' N H|p q x x' H].
  - destruct (xcol_inv P _ _ _ _ _ N H I) as (_ & _ & I'). eauto.
  - destruct (xswap_inv P _ _ _ _ H I) as (_ & _ & _ & I'). eauto.
Qed.

Lemma xsteps_inv P x x' : xsteps x x' -> tinv P x -> exists P', tinv P' x'.
Proof.
  intros H. revert P. induction H as [x|x y z H IH Hs]; intros P I; [eauto|].
  destruct (IH P I) as (P1 & I1). eapply xstep_inv; eauto.
Qed.

Lemma id_inv x : xW x = id_mat n -> (keepU = true -> xU x = id_mat n) -> tinv mid x.
Proof.
  intros EW EU.
  assert (I0 : meq n n (fn (id_mat n)) mid) by (intros i j Hi Hj; now apply id_mat_fn).
  assert (IT : meq n n (mtr (fn (id_mat n))) mid).
  { intros i j Hi Hj. unfold mtr. rewrite I0 by assumption. unfold mid. now rewrite Nat.eqb_sym. }
  unfold tinv. rewrite EW. split; [apply mtab_wfm|]. split; [intros K; rewrite (EU K); apply mtab_wfm|].
  split; [|split; [|split]].
  - eapply meq_trans; [apply mmul_ext; [apply meq_refl|exact IT]|]. apply mmul_id_r.
  - eapply meq_trans; [apply mmul_ext; [exact IT|apply meq_refl]|]. apply mmul_id_r.
  - intros K. now rewrite (EU K).
  - intros r s Hr Hs. rewrite I0 by lia. unfold mid. split; [destruct (Nat.eqb_spec r s)|destruct (Nat.eqb_spec s r)]; try lia; reflexivity.
Qed.

(** the lower right block of W is unimodular *)
Lemma block_unimodular P x : dec <= n -> tinv P x ->
  meq (n - dec) (n - dec) (mmul (n - dec) (fun a b => fn (xW x) (dec + a) (dec + b)) (fun a b => P (dec + b) (dec + a))) mid /\
  meq (n - dec) (n - dec) (mmul (n - dec) (fun a b => P (dec + b) (dec + a)) (fun a b => fn (xW x) (dec + a) (dec + b))) mid.
Proof.
  intros Hd (W1 & W2 & I1 & I2 & EU & Z0). split; intros i j Hi Hj.
  - (* W22 P22^T = (P22 W22^T)^T *)
    specialize (I1 (dec + j) (dec + i) ltac:(lia) ltac:(lia)). unfold mmul, mtr in I1.
    rewrite <- (Nat.sub_add dec n Hd) in I1 at 1. rewrite Nat.add_comm, sumZ_split in I1.
    rewrite (sumZ_0 dec) in I1.
    + unfold mmul. rewrite Z.add_0_l in I1. transitivity (mid (dec + j) (dec + i)).
      * rewrite <- I1. apply sumZ_ext. intros l Hl. ring.
      * unfold mid. destruct (Nat.eqb_spec (dec + j) (dec + i)), (Nat.eqb_spec i j); try lia; reflexivity.
    + intros l Hl. destruct (Z0 (dec + j) l) as [-> _]; [lia|lia|ring].
  - specialize (I2 (dec + j) (dec + i) ltac:(lia) ltac:(lia)). unfold mmul, mtr in I2.
    rewrite <- (Nat.sub_add dec n Hd) in I2 at 1. rewrite Nat.add_comm, sumZ_split in I2.
    rewrite (sumZ_0 dec) in I2.
    + unfold mmul. rewrite Z.add_0_l in I2. transitivity (mid (dec + j) (dec + i)).
      * rewrite <- I2. apply sumZ_ext. intros l Hl. ring.
      * unfold mid. destruct (Nat.eqb_spec (dec + j) (dec + i)), (Nat.eqb_spec i j); try lia; reflexivity.
    + intros l Hl. destruct (Z0 (dec + j) l) as [_ ->]; [lia|lia|ring].
Qed.

End Inv.
