(** * Matrices: model of [hplll::matrix<T>] (src/mat.h 86-520)

    [matrix<T>] is [vector<vector<T>>], "comme un tableau lineaire de colonnes"
    (mat.h 90-98): here a list of columns.  fplll's [Matrix<T>]/[ZZ_mat<T>] is
    modelled by the same type (row-major there; not observable through (i,j)). *)
From Coq Require Import ZArith Lia List Bool Arith.
From Verif Require Import Base Spec.
Import ListNotations.

Definition mat (T : Type) := list (list T).

(** [getcol(j)], mat.h 165 *)
Definition col {T} (M : mat T) (j : nat) : list T := nth j M [].

(** [operator()(i,j)], [get(i,j)], mat.h 138-158.  Only used inside bounds or
    under a [guard]; [dflt] is the value of the totalised access. *)
Definition mget {T} (dflt : T) (M : mat T) (i j : nat) : T := nth i (col M j) dflt.

(** assignment [M(i,j) = x] / [set(i,j,x)], mat.h 148-151 *)
Definition mset {T} (M : mat T) (i j : nat) (x : T) : mat T := lupd M j (lupd (col M j) i x).

(** well-formed n x d matrix *)
Definition wfm {T} (n d : nat) (M : mat T) : Prop :=
  length M = d /\ Forall (fun c => length c = n) M.

(** tabulate an n x d matrix: the double loops [for i<n for j<d M(i,j) = f(i,j)] *)
Definition mtab {T} (n d : nat) (f : nat -> nat -> T) : mat T :=
  map (fun j => map (fun i => f i j) (seq 0 n)) (seq 0 d).

(** one column updated entry by entry: [v[i] = f(v[i], w[i])] for ibeg <= i < ibeg+l.
    Models the loops of addcol/subcol/submulcol/addmulcol_si/... (mat.h 320-455),
    where [v] and [w] are distinct columns, hence order-independent. *)
Definition zipcol {T} (dflt : T) (f : T -> T -> T) (ibeg l : nat) (v w : list T) : list T :=
  imap (fun i x => if ((ibeg <=? i) && (i <? ibeg + l))%bool then f x (nth i w dflt) else x) v.

Definition colop {T} (dflt : T) (f : T -> T -> T) (ibeg l : nat) (M : mat T) (j k : nat) : mat T :=
  lupd M j (zipcol dflt f ibeg l (col M j) (col M k)).

(** [colswap(j,k)], mat.h 312-316 *)
Definition colswap {T} (M : mat T) (j k : nat) : mat T :=
  lupd (lupd M j (col M k)) k (col M j).

(** ** Facts *)

Lemma wfm_length {T} n d (M : mat T) : wfm n d M -> length M = d.
Proof. intros [H _]. exact H. Qed.

Lemma wfm_col {T} n d (M : mat T) j : wfm n d M -> j < d -> length (col M j) = n.
Proof.
  intros [H F] Hj. rewrite Forall_forall in F. apply F. apply nth_In. lia.
Qed.

Lemma wfm_lupd {T} n d (M : mat T) j c : wfm n d M -> length c = n -> wfm n d (lupd M j c).
Proof. intros [H F] Hc. split; [now rewrite lupd_length|]. now apply Forall_lupd. Qed.

Lemma col_lupd {T} (M : mat T) j c k :
  col (lupd M j c) k = if (Nat.eqb k j && (j <? length M))%bool then c else col M k.
Proof. unfold col. apply nth_lupd. Qed.

Lemma col_lupd_eq {T} (M : mat T) j c : j < length M -> col (lupd M j c) j = c.
Proof. intros. unfold col. now apply nth_lupd_eq. Qed.

Lemma col_lupd_neq {T} (M : mat T) j c k : k <> j -> col (lupd M j c) k = col M k.
Proof. intros. unfold col. now apply nth_lupd_neq. Qed.

Lemma wfm_mset {T} n d (M : mat T) i j x : wfm n d M -> wfm n d (mset M i j x).
Proof.
  intros H. destruct (Nat.lt_ge_cases j d) as [Hj|Hj].
  - apply wfm_lupd; [assumption|]. rewrite lupd_length. now apply wfm_col with d.
  - unfold mset. rewrite lupd_out; [assumption|]. destruct H as [H _]. lia.
Qed.

Lemma mget_mset {T} (df : T) n d M i j x i' j' : wfm n d M -> i < n -> j < d ->
  mget df (mset M i j x) i' j' = if (Nat.eqb i' i && Nat.eqb j' j)%bool then x else mget df M i' j'.
Proof.
  intros H Hi Hj. unfold mget, mset. rewrite col_lupd.
  destruct H as [HL HF]. rewrite HL.
  pose proof (proj2 (Nat.ltb_lt j d) Hj) as Lj. rewrite Lj.
  destruct (Nat.eqb j' j) eqn:Ej; cbn.
  - apply Nat.eqb_eq in Ej. subst j'. rewrite nth_lupd.
    rewrite (wfm_col n d M j) by (try split; auto).
    pose proof (proj2 (Nat.ltb_lt i n) Hi) as Li. rewrite Li, !andb_true_r. reflexivity.
  - now rewrite andb_false_r.
Qed.

Lemma mtab_wfm {T} n d (f : nat -> nat -> T) : wfm n d (mtab n d f).
Proof.
  split; unfold mtab.
  - now rewrite map_length, seq_length.
  - rewrite Forall_forall. intros c Hc. apply in_map_iff in Hc as (j & <- & _).
    now rewrite map_length, seq_length.
Qed.

Lemma mget_mtab {T} (df : T) n d f i j : i < n -> j < d -> mget df (mtab n d f) i j = f i j.
Proof.
  intros Hi Hj. unfold mget, col, mtab. rewrite nth_map_seq by assumption.
  now rewrite nth_map_seq.
Qed.

Lemma mget_out {T} (df : T) n d M i j : wfm n d M -> (n <= i \/ d <= j) -> mget df M i j = df.
Proof.
  intros H [Hi|Hj]; unfold mget.
  - destruct (Nat.lt_ge_cases j d) as [L|L].
    + apply nth_overflow. rewrite (wfm_col n d) by assumption. assumption.
    + unfold col. rewrite (nth_overflow M); [now destruct i|]. destruct H. lia.
  - unfold col. rewrite (nth_overflow M); [now destruct i|]. destruct H. lia.
Qed.

Lemma zipcol_length {T} (df : T) f b l v w : length (zipcol df f b l v w) = length v.
Proof. apply imap_length. Qed.

Lemma nth_zipcol {T} (df : T) f b l v w i : i < length v ->
  nth i (zipcol df f b l v w) df =
  if ((b <=? i) && (i <? b + l))%bool then f (nth i v df) (nth i w df) else nth i v df.
Proof. intros H. unfold zipcol. now rewrite nth_imap with (da := df). Qed.

Lemma wfm_colop {T} (df : T) f n d b l M j k : wfm n d M -> wfm n d (colop df f b l M j k).
Proof.
  intros H. destruct (Nat.lt_ge_cases j d) as [Hj|Hj].
  - apply wfm_lupd; [assumption|]. rewrite zipcol_length. now apply wfm_col with d.
  - unfold colop. rewrite lupd_out; [assumption|]. destruct H as [H _]. lia.
Qed.

Lemma mget_colop {T} (df : T) f n d b l M j k i' j' : wfm n d M -> i' < n -> j < d ->
  mget df (colop df f b l M j k) i' j' =
  if (Nat.eqb j' j && ((b <=? i') && (i' <? b + l)))%bool
  then f (mget df M i' j) (mget df M i' k) else mget df M i' j'.
Proof.
  intros H Hi Hj. unfold mget, colop. rewrite col_lupd.
  rewrite (wfm_length n d M H).
  pose proof (proj2 (Nat.ltb_lt j d) Hj) as Lj. rewrite Lj, andb_true_r.
  destruct (Nat.eqb j' j) eqn:Ej; cbn [andb]; [|reflexivity].
  apply Nat.eqb_eq in Ej. subst j'. apply nth_zipcol.
  now rewrite (wfm_col n d).
Qed.

Lemma wfm_colswap {T} n d (M : mat T) j k : wfm n d M -> j < d -> k < d -> wfm n d (colswap M j k).
Proof.
  intros H Hj Hk. unfold colswap. apply wfm_lupd; [apply wfm_lupd; [assumption|]|];
    now apply wfm_col with d.
Qed.

Lemma col_colswap {T} n d (M : mat T) j k c : wfm n d M -> j < d -> k < d ->
  col (colswap M j k) c = col M (if Nat.eqb c j then k else if Nat.eqb c k then j else c).
Proof.
  intros [HL _] Hj Hk. unfold colswap. rewrite !col_lupd, lupd_length, HL.
  apply Nat.ltb_lt in Hj, Hk. rewrite Hj, Hk, !andb_true_r.
  destruct (Nat.eqb c k) eqn:E1; destruct (Nat.eqb c j) eqn:E2; try reflexivity.
  apply Nat.eqb_eq in E1, E2. congruence.
Qed.

Lemma mget_colswap {T} (df : T) n d M j k i c : wfm n d M -> j < d -> k < d ->
  mget df (colswap M j k) i c = mget df M i (if Nat.eqb c j then k else if Nat.eqb c k then j else c).
Proof. intros. unfold mget. now rewrite (col_colswap n d). Qed.

Lemma mat_ext {T} (df : T) n d M N : wfm n d M -> wfm n d N ->
  (forall i j, i < n -> j < d -> mget df M i j = mget df N i j) -> M = N.
Proof.
  intros HM HN H. apply (nth_ext_len M N []).
  - destruct HM, HN. congruence.
  - intros j Hj. rewrite (wfm_length n d M HM) in Hj.
    apply (nth_ext_len _ _ df).
    + change (length (col M j) = length (col N j)). rewrite !(wfm_col n d) by assumption. reflexivity.
    + intros i Hi. change (length (nth j M [])) with (length (col M j)) in Hi.
      rewrite (wfm_col n d) in Hi by assumption. now apply H.
Qed.

(** the entries of an integer matrix of the model, as a specification matrix *)
Definition fn (M : mat Z) : zmat := fun i j => mget 0%Z M i j.
