(** * C99: lcond at a given precision, at the precision of the basis, and with CHECK *)
From Coq Require Import ZArith Lia List Bool Arith Floats.
From Verif Require Import Base Spec Mat FP Hlll Hlll2 HlllInt Lcond Double Examples.
From Verif Require Import PropLcond.
Import ListNotations.
Local Open Scope Z_scope.

Section C99.
Context {F M : Type} (fp : fpops F) (fexpo : F -> Z) (mp : Z -> fpops M) (mexpo : Z -> M -> Z) (getprec : Z -> Z).
Variable Jm : nat -> junk_t (F := M).
Variable mjunk : nat -> nat -> nat -> M.
Variables (junk : nat -> nat -> F) (bits tproper dprec : Z) (L : lattice F).
Notation lcond := (lcond fp fexpo mp mexpo getprec Jm mjunk).

(** what a new mpfr object of precision p, built on getbase() without transformation matrix, answers to
    lcond(ANY, DEFAULT_PREC); [k] numbers the object (its uninitialised memory) *)
Definition value_at (k : nat) (p v : Z) : Prop :=
  let c := lcfg L in
  exists L' : lattice M,
    Lcond.lcond (mp p) (mexpo p) mp mexpo getprec Jm mjunk 0 (mjunk k) bits 0 0 0 p
      (new_lattice (mp p) (Jm k) (cn c) (cd c) (getbase L) false 0 true 0) = Ok (v, L', p).

Lemma value_inner k p v : value_at k p v <-> inner_lcond mp mexpo Jm mjunk k p L = Ok v.
Proof.
  unfold value_at, inner_lcond, Lcond.lcond, lcond_default. cbv zeta. cbn [Z.eqb].
  destruct (lcond_any _ _ _ _) as [[v1 L1]| |]; cbn [bind].
  - split; [intros (L' & H); injection H as -> _; reflexivity|]. intros H. injection H as ->. now exists L1.
  - split; [intros (L' & H)|intros H]; discriminate.
  - split; [intros (L' & H)|intros H]; discriminate.
Qed.

(** lcond(t, prec): the value at that precision; lcond(t, UNKNOWN_PREC): at precision 2 d maxbitsize.  The object is unchanged. *)
Theorem C99_given : forall fuel prec v L' p, 2 <= prec ->
  lcond fuel junk bits tproper prec 0 dprec L = Ok (v, L', p) <-> value_at 0 prec v /\ L' = L /\ p = prec.
Proof.
  intros fuel prec v L' p H2. rewrite value_inner. unfold Lcond.lcond. destruct (Z.eqb_spec prec 0); [lia|].
  destruct (Z.leb_spec 2 prec); [|lia]. cbn [andb Z.eqb].
  destruct (inner_lcond mp mexpo Jm mjunk 0 prec L) as [v1| |]; cbn [bind].
  - split; [intros H1; injection H1 as -> -> ->; auto|]. intros (H1 & -> & ->). now injection H1 as ->.
  - split; [discriminate|intros (H1 & _); discriminate].
  - split; [discriminate|intros (H1 & _); discriminate].
Qed.
Theorem C99_unknown : forall fuel flagheur v L' p,
  lcond fuel junk bits tproper 1 flagheur dprec L = Ok (v, L', p) <->
  value_at 0 (2 * Z.of_nat (cd (lcfg L)) * bits) v /\ L' = L /\ p = 2 * Z.of_nat (cd (lcfg L)) * bits.
Proof.
  intros fuel fh v L' p. rewrite value_inner. unfold Lcond.lcond. change (1 =? 0) with false. change (2 <=? 1) with false. change (1 =? 1) with true.
  cbn [andb]. generalize (2 * Z.of_nat (cd (lcfg L)) * bits). intros p2. destruct (inner_lcond mp mexpo Jm mjunk 0 _ L) as [v1| |]; cbn [bind].
  - split; [intros H1; injection H1 as -> -> ->; auto|]. intros (H1 & -> & ->). now injection H1 as ->.
  - split; [discriminate|intros (H1 & _); discriminate].
  - split; [discriminate|intros (H1 & _); discriminate].
Qed.

(** CHECK: c j is the value at precision (j+1) prec; the answer is the first c k equal to the one before it.  Nothing precedes
    c 0 but the initial value 0 of the variable oldcond: a first value 0 is answered without a second computation *)
Definition before (c : nat -> Z) (k : nat) : Z := match k with O => 0 | S j => c j end.

Lemma check_forward prec fuel : forall k q c v, (forall j, (j < k)%nat -> value_at j ((Z.of_nat j + 1) * prec) (c j)) ->
  (forall j, (j < k)%nat -> c j <> before c j) -> q = Z.of_nat k * prec ->
  check_loop mp mexpo Jm mjunk fuel k prec q (before c k) L = Ok v ->
  exists k' c', (forall j, (j <= k')%nat -> value_at j ((Z.of_nat j + 1) * prec) (c' j)) /\
    v = c' k' /\ c' k' = before c' k' /\ forall j, (j < k')%nat -> c' j <> before c' j.
Proof.
  induction fuel as [|fuel IH]; intros k q c v HV HN Hq H; cbn [check_loop] in H; [discriminate|].
  apply bind_Ok in H as (w & Hw & H). replace (q + prec) with ((Z.of_nat k + 1) * prec) in Hw by (subst q; ring).
  set (c' := fun j => if (j =? k)%nat then w else c j).
  assert (EC : forall j, (j < k)%nat -> c' j = c j) by (intros j Hj; unfold c'; destruct (Nat.eqb_spec j k); [lia|reflexivity]).
  assert (EK : c' k = w) by (unfold c'; now rewrite Nat.eqb_refl).
  assert (EB : forall j, (j <= k)%nat -> before c' j = before c j) by (intros [|j] Hj; [reflexivity|cbn; apply EC; lia]).
  assert (HV' : forall j, (j < S k)%nat -> value_at j ((Z.of_nat j + 1) * prec) (c' j)).
  { intros j Hj. destruct (Nat.eq_dec j k) as [->|N]; [rewrite EK; now apply value_inner|]. rewrite EC by lia. apply HV. lia. }
  assert (HN' : forall j, (j < k)%nat -> c' j <> before c' j) by (intros j Hj; rewrite EC, EB by lia; now apply HN).
  destruct (Z.eqb_spec w (before c k)) as [E|E].
  - injection H as <-. exists k, c'. split; [intros j Hj; apply HV'; lia|]. split; [now rewrite EK|].
    split; [rewrite EK, EB by lia; exact E|exact HN'].
  - replace (k + 1)%nat with (S k) in H by lia. rewrite <- EK in H. change (c' k) with (before c' (S k)) in H. eapply (IH (S k)); [exact HV'| |reflexivity|].
    + intros j Hj. destruct (Nat.eq_dec j k) as [->|N]; [rewrite EK, EB by lia; exact E|apply HN'; lia].
    + replace (Z.of_nat (S k) * prec) with (q + prec) by (subst q; lia). exact H.
Qed.

Theorem C99_check : forall fuel prec v L' p, 2 <= prec ->
  lcond fuel junk bits tproper prec 1 dprec L = Ok (v, L', p) ->
  L' = L /\ p = getprec dprec /\
  exists k c, (forall j, (j <= k)%nat -> value_at j ((Z.of_nat j + 1) * prec) (c j)) /\
    v = c k /\ c k = before c k /\ forall j, (j < k)%nat -> c j <> before c j.
Proof.
  intros fuel prec v L' p H2 H. unfold Lcond.lcond in H. destruct (Z.eqb_spec prec 0); [lia|].
  destruct (Z.leb_spec 2 prec); [|lia]. cbn [andb Z.eqb] in H. apply bind_Ok in H as (w & Hw & H). injection H as -> <- <-.
  split; [reflexivity|]. split; [reflexivity|].
  apply (check_forward prec fuel 0 0 (fun _ => 0) v); [intros; lia|intros; lia|reflexivity|exact Hw].
Qed.

Lemma check_back prec : forall m k q c fuel, (m < fuel)%nat -> (forall j, (j <= k + m)%nat -> value_at j ((Z.of_nat j + 1) * prec) (c j)) ->
  c (k + m)%nat = before c (k + m) -> (forall j, (k <= j < k + m)%nat -> c j <> before c j) -> q = Z.of_nat k * prec ->
  check_loop mp mexpo Jm mjunk fuel k prec q (before c k) L = Ok (c (k + m)%nat).
Proof.
  induction m as [|m IH]; intros k q c fuel Hf HV HE HN Hq; (destruct fuel as [|fuel]; [lia|]); cbn [check_loop];
    replace (q + prec) with ((Z.of_nat k + 1) * prec) by (subst q; ring);
    rewrite (proj1 (value_inner k _ _) (HV k ltac:(lia))); cbn [bind].
  - rewrite Nat.add_0_r in *. rewrite HE, Z.eqb_refl. now rewrite <- HE.
  - destruct (Z.eqb_spec (c k) (before c k)) as [E|E]; [exfalso; apply (HN k); [lia|exact E]|].
    replace (k + 1)%nat with (S k) by lia. change (c k) with (before c (S k)). replace (k + S m)%nat with (S k + m)%nat in * by lia.
    apply IH; [lia|exact HV|exact HE|intros j Hj; apply HN; lia|]. lia.
Qed.

(** it answers as soon as two consecutive values agree *)
Theorem C99_check_ends : forall prec k c, 2 <= prec ->
  (forall j, (j <= k)%nat -> value_at j ((Z.of_nat j + 1) * prec) (c j)) -> c k = before c k -> (forall j, (j < k)%nat -> c j <> before c j) ->
  forall fuel, (k < fuel)%nat -> lcond fuel junk bits tproper prec 1 dprec L = Ok (c k, L, getprec dprec).
Proof.
  intros prec k c H2 HV HE HN fuel Hf. unfold Lcond.lcond. destruct (Z.eqb_spec prec 0); [lia|].
  destruct (Z.leb_spec 2 prec); [|lia]. cbn [andb Z.eqb]. change 0 with (before c 0) at 2.
  rewrite (check_back prec k 0 0 c fuel Hf HV HE ltac:(intros; apply HN; lia) eq_refl). reflexivity.
Qed.
End C99.

(** one object: the call with CHECK answers, after the second computation (the first value is not 0), so C99_check applies;
    the call at a given precision answers as well *)
Lemma third_ok A (B : Type) (a : res (Z * A * B)) v : match a with Ok (w, _, _) => (w =? v)%Z = true | _ => False end ->
  exists L p, a = Ok (v, L, p).
Proof. destruct a as [[[w L] p]| |]; try contradiction. intros E. apply Z.eqb_eq in E as ->. now exists L, p. Qed.

Local Notation ex_L := (new_lattice dbl Jz 4 3 A1 false 0 true 0).
Local Notation ex_lcond fuel flagprec flagheur :=
  (lcond dbl d_expo (fun _ => dbl) (fun _ => d_expo) (fun p => p) (fun _ => Jz) (fun _ _ _ => 0%float) fuel
    (fun _ _ => 0%float) 7 0 flagprec flagheur 53 ex_L).
Example C99_case_value : exists v, v <> 0 /\ value_at (fun _ => dbl) (fun _ => d_expo) (fun p => p) (fun _ => Jz) (fun _ _ _ => 0%float) 7 ex_L 0 100 v.
Proof.
  assert (H : exists v, v <> 0 /\ exists L p, ex_lcond 1 100 0 = Ok (v, L, p)).
  { exists 7. split; [|apply third_ok; vm_compute; reflexivity]. discriminate. }
  destruct H as (v & N & L & p & H). exists v. split; [exact N|].
  apply C99_given in H; [|lia]. apply H.
Qed.
Example C99_case_check : exists v L p, ex_lcond 3 100 1 = Ok (v, L, p) /\ v <> 0.
Proof.
  exists 7. assert (H : exists L p, ex_lcond 3 100 1 = Ok (7, L, p)) by (apply third_ok; vm_compute; reflexivity).
  destruct H as (L & p & H). exists L, p. split; [exact H|discriminate].
Qed.

Print Assumptions C99_given.
Print Assumptions C99_unknown.
Print Assumptions C99_check.
Print Assumptions C99_check_ends.
