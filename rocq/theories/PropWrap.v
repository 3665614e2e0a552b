(** * Properties of the staged drivers: hlll<ZT>, slll_wrap, slll<mpz_t> (C27), blevel (C29) *)
From Coq Require Import ZArith Lia List Bool Arith Floats.
From Verif Require Import Base Spec Mat FP Hlll Hlll2 Structure Double Examples MachInt Slll Wrap WrapFacts PropSlll.
Import ListNotations.
Local Open Scope Z_scope.

(** ** C27 *)

(** hlll<mpz_t>: the same lattice, whatever the two floating point arithmetics, the size of the matrix and the
    positions d1 <= d2 of the changes of stage *)
Theorem C27_hlll_wrapper :
  forall (F G : Type) (fp : fpops F) (gp : fpops G), expo_nonneg fp -> expo_nonneg gp ->
  forall W WG fuel delta junk deltaG junkG (d1 d2 n d : nat) A C, (d1 <= d2)%nat ->
    hlll_mpz fp gp W WG fuel delta junk deltaG junkG d1 d2 n d A = Ok C ->
    same_lattice n d (fn A) (fn C).
Proof.
  intros F G fp gp EX EXG W WG fuel delta junk deltaG junkG d1 d2 n d A C D H.
  apply hlll_wrapper_lattice in H as (C' & _ & E & S); try assumption.
  eapply same_lattice_trans; [exact S|]. apply same_lattice_ext, meq_sym, E.
Qed.

(** hlll<long>: when every entry of A is a 64 bit integer *)
Theorem C27_hlll_long :
  forall (F G : Type) (fp : fpops F) (gp : fpops G), expo_nonneg fp -> expo_nonneg gp ->
  forall W WG fuel delta junk deltaG junkG (d1 d2 n d : nat) A C, (d1 <= d2)%nat ->
    (forall i j, (i < n)%nat -> (j < d)%nat -> int64 (fn A i j)) ->
    hlll_long fp gp W WG fuel delta junk deltaG junkG d1 d2 n d A = Ok C ->
    same_lattice n d (fn A) (fn C).
Proof.
  intros F G fp gp EX EXG W WG fuel delta junk deltaG junkG d1 d2 n d A C D R H.
  apply hlll_wrapper_lattice in H as (C' & _ & E & S); try assumption.
  eapply same_lattice_trans; [|apply same_lattice_ext, meq_sym, E]. eapply same_lattice_trans; [|exact S].
  apply same_lattice_ext. intros i j Hi Hj. symmetry. apply get_si_id. now apply R.
Qed.

(** hlll<__int128_t>: when the entries of A and those of the reduced matrix are 128 bit integers *)
Theorem C27_hlll_int128 :
  forall (F G : Type) (fp : fpops F) (gp : fpops G), expo_nonneg fp -> expo_nonneg gp ->
  forall W WG fuel delta junk deltaG junkG (d1 d2 n d : nat) A C, (d1 <= d2)%nat ->
    (forall i j, (i < n)%nat -> (j < d)%nat -> int128 (fn A i j)) ->
    (forall C', hlll_stages fp gp W WG fuel delta junk deltaG junkG d1 d2 n d (mtab n d (fn A)) = Ok C' ->
       forall i j, (i < n)%nat -> (j < d)%nat -> int128 (fn C' i j)) ->
    hlll_int128 fp gp W WG fuel delta junk deltaG junkG d1 d2 n d A = Ok C ->
    same_lattice n d (fn A) (fn C).
Proof.
  intros F G fp gp EX EXG W WG fuel delta junk deltaG junkG d1 d2 n d A C D R RC H.
  apply hlll_wrapper_lattice in H as (C' & H & E & S); try assumption.
  assert (EA : mtab n d (fun i j => mpz_set_128int (fn A i j)) = mtab n d (fn A)).
  { unfold mtab. apply map_ext_in. intros j Hj. apply in_seq in Hj. apply map_ext_in. intros i Hi. apply in_seq in Hi.
    apply set_128_id. apply R; lia. }
  rewrite EA in H. specialize (RC C' H).
  apply same_lattice_trans with (fn C'); [|apply same_lattice_ext; intros i j Hi Hj; rewrite (E i j Hi Hj); symmetry; apply get_128_id; now apply RC].
  eapply same_lattice_trans; [|exact S].
  apply same_lattice_ext. intros i j Hi Hj. symmetry. apply set_128_id. now apply R.
Qed.

Definition dW : list nat -> junk_t (F := float) := fun _ => Jz.

(** three stages on four columns: two columns, three columns, four columns *)
Example C27_hlll_case :
  match hlll_mpz dbl dbl dW dW 60 d99 0%float d99 0%float 2 3 5 4 AS with Ok C => C <> AS | _ => False end /\
  match hlll_long dbl dbl dW dW 60 d99 0%float d99 0%float 2 3 5 4 AS with Ok C => C <> AS | _ => False end /\
  match hlll_int128 dbl dbl dW dW 60 d99 0%float d99 0%float 2 3 5 4 AS with Ok C => C <> AS | _ => False end /\
  forallb (fun r => forallb (fun z => (- 2 ^ 63 <=? z) && (z <? 2 ^ 63)) r) AS = true.
Proof. vm_compute. repeat split; discriminate. Qed.

(** without the bound on the entries hlll<long> changes the lattice: the 1x1 matrix 2^63 gives 0 *)
Lemma ok_is A (a : res A) b : a = Ok b -> exists C, a = Ok C /\ C = b.
Proof. intros ->. now exists b. Qed.
Lemma hlll_long_witness : exists C,
  hlll_long dbl dbl dW dW 20 d99 0%float d99 0%float 330 430 1 1 [[2 ^ 63]] = Ok C /\ C = [[0]].
Proof. apply ok_is. vm_compute. reflexivity. Qed.

Theorem C27_hlll_long_refuted :
  ~ forall W WG fuel delta junk deltaG junkG (d1 d2 n d : nat) A C, (d1 <= d2)%nat ->
    hlll_long dbl dbl W WG fuel delta junk deltaG junkG d1 d2 n d A = Ok C ->
    same_lattice n d (fn A) (fn C).
Proof.
  intros H. destruct hlll_long_witness as (C & E & EC).
  assert (Hle : (330 <= 430)%nat) by (apply Nat.leb_le; vm_compute; reflexivity).
  pose proof (H dW dW 20%nat d99 0%float d99 0%float 330%nat 430%nat 1%nat 1%nat [[2 ^ 63]] C Hle E) as S. subst C.
  destruct (proj1 (S (fun _ => 2 ^ 63))) as (c & Hc).
  - exists (fun _ => 1). intros i Hi. replace i with 0%nat by lia. reflexivity.
  - specialize (Hc 0%nat ltac:(lia)). change (2 ^ 63 = 0 + 0 * c 0%nat) in Hc. lia.
Qed.

(** slll_wrap and slll<mpz_t>: every vector of the result is in the lattice of the input *)
Theorem C27_slll_sublattice :
  forall (F G : Type) (fp : fpops F) (gp : fpops G), expo_nonneg fp -> expo_nonneg gp ->
  forall f0001 f501 fgap f99 fmul2 g0001 g501 ggap g99 gmul2 W Wb WG WGb fuel delta junk deltaG junkG Sg (dthreshold d1 d2 n d : nat) A C v,
    (1 <= dthreshold)%nat -> (1 <= d1 <= d2)%nat -> (1 <= d)%nat ->
    slll_mpz fp gp f0001 f501 fgap f99 fmul2 g0001 g501 ggap g99 gmul2 W Wb WG WGb fuel delta junk deltaG junkG Sg dthreshold d1 d2 n d A = Ok C ->
    in_lattice n d (fn C) v -> in_lattice n d (fn A) v.
Proof.
  intros. match goal with H : in_lattice _ _ _ v |- _ => revert v H end. fold (sublattice n d (fn A) (fn C)).
  eapply (slll_mpz_sub fp gp). 6: eassumption. all: eassumption.
Qed.

Theorem C27_slll_wrap_sublattice :
  forall (F : Type) (fp : fpops F), expo_nonneg fp ->
  forall f0001 f501 fgap f99 fmul2 W Wb fuel delta junk Sg method (dthreshold n d : nat) A C v,
    (1 <= dthreshold)%nat -> (1 <= d)%nat ->
    slll_wrap fp f0001 f501 fgap f99 fmul2 W Wb fuel delta junk Sg method dthreshold n d A = Ok C ->
    in_lattice n d (fn C) v -> in_lattice n d (fn A) v.
Proof.
  intros. match goal with H : in_lattice _ _ _ v |- _ => revert v H end. fold (sublattice n d (fn A) (fn C)).
  eapply (wrap_sub fp). 4: eassumption. all: eassumption.
Qed.

(** up to the threshold slll_wrap is hlll: the same lattice *)
Theorem C27_slll_wrap_small :
  forall (F : Type) (fp : fpops F), expo_nonneg fp ->
  forall f0001 f501 fgap f99 fmul2 W Wb fuel delta junk Sg method (dthreshold n d : nat) A C,
    (d <= dthreshold)%nat ->
    slll_wrap fp f0001 f501 fgap f99 fmul2 W Wb fuel delta junk Sg method dthreshold n d A = Ok C ->
    same_lattice n d (fn A) (fn C).
Proof. intros. eapply (wrap_same fp); eassumption. Qed.

(** the recursion on the gaps: never deeper than the position of the gap (one more level changes nothing) *)
Theorem C27_gap_recursion :
  forall (F : Type) (fp : fpops F) f0001 f501 fgap f99 fmul2 W Wb fuel delta junk Sg method p (n d : nat) A (gpos k : nat),
    slll_wrap_gap fp f0001 f501 fgap f99 fmul2 W Wb fuel delta junk Sg method (S gpos + k) p n d A gpos =
    slll_wrap_gap fp f0001 f501 fgap f99 fmul2 W Wb fuel delta junk Sg method (S gpos) p n d A gpos.
Proof.
  intros. induction k as [|k IH]; [now rewrite Nat.add_0_r|].
  rewrite <- IH. replace (S gpos + S k)%nat with (S (S (gpos + k))) by lia. symmetry. apply gap_depth. lia.
Qed.

Definition dwrap (fuel Sg : nat) (method : Z) :=
  slll_wrap dbl 0.001%float 0.501%float 0x1.12e0be826d695p-30%float d99 ldx (fun _ => Jz) (fun _ _ _ => Jz) fuel d99 0%float Sg method.
Example C27_slll_case :
  match dwrap 60 2 0 2 5 4 AS with Ok C => C <> AS | _ => False end /\
  match dwrap 60 1 1 1 5 4 AS with Ok C => C <> AS | _ => False end /\
  match dwrap 60 1 0 4 5 4 AS with Ok C => C <> AS | _ => False end /\
  match slll_mpz dbl dbl 0.001%float 0.501%float 0x1.12e0be826d695p-30%float d99 ldx
          0.001%float 0.501%float 0x1.12e0be826d695p-30%float d99 ldx (fun _ _ => Jz) (fun _ _ _ _ => Jz) (fun _ => Jz) (fun _ _ _ => Jz)
          60 d99 0%float d99 0%float 1 1 2 3 5 4 AS with Ok C => C <> AS | _ => False end.
Proof. vm_compute. repeat split; discriminate. Qed.

(** beyond the threshold the lattice may be lost: two independent columns, and a zero column comes back *)
Definition AW : mat Z := [[1;0;0;0;0;0];[0;1;1;1;1;1]].
Lemma slll_wrap_witness : exists C,
  slll_wrap dbl 0.001%float 0.501%float 0x1.12e0be826d695p-30%float d99 ldx (fun _ => Jz) (fun _ _ _ => Jz) 20 d99 0%float 2 0 1 6 2 AW = Ok C /\
  C = [[1;0;0;0;0;0];[0;0;0;0;0;0]].
Proof. apply ok_is. vm_compute. reflexivity. Qed.

Theorem C27_slll_wrap_refuted :
  ~ forall W Wb fuel delta junk Sg method (dthreshold n d : nat) A C, (1 <= dthreshold)%nat -> (1 <= d)%nat -> independent n d (fn A) ->
    slll_wrap dbl 0.001%float 0.501%float 0x1.12e0be826d695p-30%float d99 ldx W Wb fuel delta junk Sg method dthreshold n d A = Ok C ->
    same_lattice n d (fn A) (fn C).
Proof.
  intros H. destruct slll_wrap_witness as (C & E & EC).
  assert (I : independent 6 2 (fn AW)).
  { intros c Hc. pose proof (Hc 0%nat ltac:(lia)) as H0. pose proof (Hc 1%nat ltac:(lia)) as H1.
    cbn -[Z.mul] in H0, H1. intros j Hj. destruct j as [|[|j]]; lia. }
  pose proof (H (fun _ => Jz) (fun _ _ _ => Jz) 20%nat d99 0%float 2%nat 0 1%nat 6%nat 2%nat AW C ltac:(lia) ltac:(lia) I E) as S. subst C.
  destruct (proj1 (S (fun i => if (i =? 0)%nat then 0 else 1))) as (c & Hc).
  - exists (fun j => if (j =? 1)%nat then 1 else 0). intros i Hi. do 6 (destruct i as [|i]; [reflexivity|]). lia.
  - specialize (Hc 1%nat ltac:(lia)). cbn -[Z.mul] in Hc. lia.
Qed.

(** ** C29: blevel *)

(** it writes the first (d/bs)*bs columns and no other: block q of the result generates the lattice of block q of the
    input, and equals it when q < dec.  When bs divides d the lattice is that of the input *)
Theorem C29_blevel :
  forall (F : Type) (fp : fpops F), expo_nonneg fp ->
  forall fuel delta junk J (n d : nat) B0 Ain (bs dec : nat) B,
    blevel fp fuel delta junk J n d B0 Ain bs dec = Ok B ->
    (forall q, (q < d / bs)%nat -> same_lattice n bs (fun i j => fn Ain i (q * bs + j)%nat) (fun i j => fn B i (q * bs + j)%nat)) /\
    (forall i j, (i < n)%nat -> (j < d / bs * bs)%nat -> (j < dec * bs)%nat -> fn B i j = fn Ain i j) /\
    (forall i j, (i < n)%nat -> (j < d)%nat -> (d / bs * bs <= j)%nat -> fn B i j = fn B0 i j) /\
    ((d mod bs = 0)%nat -> same_lattice n d (fn Ain) (fn B)).
Proof.
  intros F fp EX fuel delta junk J n d B0 Ain bs dec B H. apply blevel_spec in H as (H1 & H2 & H3 & H4); [|assumption].
  split; [exact H2|]. split; [exact H3|]. split; [exact H1|exact H4].
Qed.

Example C29_case :
  match blevel dbl 60 d99 0%float Jz 5 4 [] AS 2 0 with Ok B => B <> AS | _ => False end /\
  match blevel dbl 60 d99 0%float Jz 5 4 [] AS 2 1 with Ok B => firstn 2 B = firstn 2 AS /\ B <> AS | _ => False end.
Proof. vm_compute. repeat split; discriminate. Qed.

(** when bs does not divide d the last columns of the input are not copied: B is not a basis of the lattice *)
Lemma blevel_witness : exists B, blevel dbl 60 d99 0%float Jz 3 3 [[0;0;0];[0;0;0];[0;0;0]] [[1;0;0];[0;1;0];[0;0;1]] 2 0 = Ok B /\ B = [[1;0;0];[0;1;0];[0;0;0]].
Proof. apply ok_is. vm_compute. reflexivity. Qed.
Theorem C29_blevel_refuted :
  ~ forall fuel delta junk J (n d : nat) B0 Ain (bs dec : nat) B,
    blevel dbl fuel delta junk J n d B0 Ain bs dec = Ok B -> same_lattice n d (fn Ain) (fn B).
Proof.
  intros H. destruct blevel_witness as (B & E & EB).
  pose proof (H 60%nat d99 0%float Jz 3%nat 3%nat [[0;0;0];[0;0;0];[0;0;0]] [[1;0;0];[0;1;0];[0;0;1]] 2%nat 0%nat B E) as S. subst B.
  destruct (proj1 (S (fun i => if (i =? 2)%nat then 1 else 0))) as (c & Hc).
  - exists (fun j => if (j =? 2)%nat then 1 else 0). intros i Hi. do 3 (destruct i as [|i]; [reflexivity|]). lia.
  - specialize (Hc 2%nat ltac:(lia)). cbn -[Z.mul] in Hc. lia.
Qed.

Print Assumptions C27_hlll_wrapper.
Print Assumptions C27_hlll_long.
Print Assumptions C27_hlll_int128.
Print Assumptions C27_hlll_long_refuted.
Print Assumptions C27_slll_sublattice.
Print Assumptions C27_slll_wrap_sublattice.
Print Assumptions C27_slll_wrap_small.
Print Assumptions C27_gap_recursion.
Print Assumptions C27_slll_wrap_refuted.
Print Assumptions C29_blevel.
Print Assumptions C29_blevel_refuted.
