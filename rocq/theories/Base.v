(** * Result monad and list utilities *)
From Coq Require Import ZArith Lia List Bool Arith.
Import ListNotations.

(** Outcome of a piece of C++ code.
    [UB]: an access outside a vector/matrix (undefined behaviour).
    [NoFuel]: the fuel given to a [while] loop ran out (no conclusion). *)
Inductive res (A : Type) : Type :=
| Ok (a : A)
| UB
| NoFuel.
Arguments Ok {A} a.
Arguments UB {A}.
Arguments NoFuel {A}.

Definition bind {A B} (m : res A) (k : A -> res B) : res B :=
  match m with Ok a => k a | UB => UB | NoFuel => NoFuel end.

Notation "'let*' x ':=' m 'in' k" := (bind m (fun x => k))
  (at level 200, x pattern, m at level 100, k at level 200, right associativity).

(** [guard b m]: the access is legal iff [b] *)
Definition guard {A} (b : bool) (m : res A) : res A := if b then m else UB.

Lemma bind_Ok {A B} (m : res A) (k : A -> res B) b :
  bind m k = Ok b -> exists a, m = Ok a /\ k a = Ok b.
Proof. destruct m; cbn; intros H; try discriminate. eauto. Qed.

Lemma guard_Ok {A} b (m : res A) a : guard b m = Ok a -> b = true /\ m = Ok a.
Proof. destruct b; cbn; [auto|discriminate]. Qed.

(** counted loops *)

(** [for (i = a, a+1, ... in l) s := f i s] *)
Fixpoint mfold {A S} (f : A -> S -> res S) (l : list A) (s : S) : res S :=
  match l with
  | [] => Ok s
  | a :: l' => let* s' := f a s in mfold f l' s'
  end.

Lemma mfold_inv {A S} (P : S -> Prop) (f : A -> S -> res S) l s s' :
  (forall a t t', In a l -> P t -> f a t = Ok t' -> P t') ->
  P s -> mfold f l s = Ok s' -> P s'.
Proof.
  revert s. induction l as [|a l IH]; cbn; intros s Hf Hs H.
  - now injection H as <-.
  - apply bind_Ok in H as (t & Ht & H). apply (IH t); auto.
    + intros; eapply Hf; eauto.
    + eapply Hf; eauto.
Qed.

Lemma mfold_ok {A S} (P : S -> Prop) (f : A -> S -> res S) l s :
  (forall a t, In a l -> P t -> exists t', f a t = Ok t' /\ P t') ->
  P s -> exists s', mfold f l s = Ok s' /\ P s'.
Proof.
  revert s. induction l as [|a l IH]; cbn; intros s Hf Hs.
  - eauto.
  - destruct (Hf a s) as (t & -> & Ht); auto. cbn. apply IH; auto.
Qed.

(** descending list [hi, hi-1, ..., lo] of the loop [for (i = hi; i >= lo; i--)] *)
Definition down (hi lo : nat) : list nat := rev (seq lo (S hi - lo)).
Arguments down : simpl never.

Lemma in_down hi lo i : In i (down hi lo) <-> lo <= i <= hi.
Proof. unfold down. rewrite <- in_rev, in_seq. lia. Qed.

(** list update *)
Fixpoint lupd {A} (l : list A) (i : nat) (x : A) : list A :=
  match l, i with
  | [], _ => []
  | _ :: l', O => x :: l'
  | y :: l', S i' => y :: lupd l' i' x
  end.

Lemma lupd_length {A} (l : list A) i x : length (lupd l i x) = length l.
Proof. revert i. induction l as [|y l IH]; intros [|i]; cbn; auto. Qed.

Lemma nth_lupd {A} (l : list A) i x j dflt :
  nth j (lupd l i x) dflt = if (Nat.eqb j i && (i <? length l))%bool then x else nth j l dflt.
Proof.
  revert i j. induction l as [|y l IH]; intros [|i] [|j]; cbn; auto.
  - destruct (Nat.eqb j i); reflexivity.
  - rewrite IH. reflexivity.
Qed.

Lemma nth_lupd_eq {A} (l : list A) i x dflt : i < length l -> nth i (lupd l i x) dflt = x.
Proof. intros H. rewrite nth_lupd, Nat.eqb_refl. apply Nat.ltb_lt in H. now rewrite H. Qed.

Lemma nth_lupd_neq {A} (l : list A) i x j dflt : j <> i -> nth j (lupd l i x) dflt = nth j l dflt.
Proof. intros H. rewrite nth_lupd. apply Nat.eqb_neq in H. now rewrite H. Qed.

Lemma lupd_out {A} (l : list A) i x : length l <= i -> lupd l i x = l.
Proof.
  revert i. induction l as [|y l IH]; intros [|i] H; cbn in *; auto; [lia|].
  f_equal. apply IH. lia.
Qed.

Lemma lupd_nth_id {A} (l : list A) i dflt : lupd l i (nth i l dflt) = l.
Proof. revert i. induction l as [|y l IH]; intros [|i]; cbn; auto. now rewrite IH. Qed.

Lemma Forall_lupd {A} (P : A -> Prop) l i x : Forall P l -> P x -> Forall P (lupd l i x).
Proof.
  intros H Hx. revert i. induction H as [|y l Hy H IH]; intros [|i]; cbn; auto.
Qed.

(** map with index *)
Fixpoint imap_from {A B} (k : nat) (f : nat -> A -> B) (l : list A) : list B :=
  match l with [] => [] | x :: l' => f k x :: imap_from (S k) f l' end.
Definition imap {A B} (f : nat -> A -> B) (l : list A) : list B := imap_from 0 f l.

Lemma imap_from_length {A B} k (f : nat -> A -> B) l : length (imap_from k f l) = length l.
Proof. revert k. induction l as [|x l IH]; intros k; cbn; auto. Qed.

Lemma imap_length {A B} (f : nat -> A -> B) l : length (imap f l) = length l.
Proof. apply imap_from_length. Qed.

Lemma nth_imap_from {A B} k (f : nat -> A -> B) l i da db :
  i < length l -> nth i (imap_from k f l) db = f (k + i) (nth i l da).
Proof.
  revert k i. induction l as [|x l IH]; intros k [|i] H; cbn in *; try lia.
  - now rewrite Nat.add_0_r.
  - rewrite IH by lia. f_equal. lia.
Qed.

Lemma nth_imap {A B} (f : nat -> A -> B) l i da db :
  i < length l -> nth i (imap f l) db = f i (nth i l da).
Proof. intros H. unfold imap. now rewrite nth_imap_from with (da := da). Qed.

Lemma nth_ext_len {A} (l l' : list A) dflt :
  length l = length l' -> (forall i, i < length l -> nth i l dflt = nth i l' dflt) -> l = l'.
Proof. intros. apply nth_ext with dflt dflt; auto. Qed.

Lemma nth_skipn {A} k (l : list A) i dflt : nth i (skipn k l) dflt = nth (k + i) l dflt.
Proof.
  revert l. induction k as [|k IH]; intros [|x l]; cbn; auto. now destruct i.
Qed.

Lemma nth_firstn {A} k (l : list A) i dflt : i < k -> nth i (firstn k l) dflt = nth i l dflt.
Proof.
  revert l i. induction k as [|k IH]; intros [|x l] [|i] H; cbn; auto; try lia.
  apply IH. lia.
Qed.

(** overwrite [l] from position [k] with [w] *)
Definition splice {A} (k : nat) (w l : list A) : list A :=
  firstn k l ++ w ++ skipn (k + length w) l.

Lemma splice_length {A} k (w l : list A) :
  k + length w <= length l -> length (splice k w l) = length l.
Proof.
  intros H. unfold splice. rewrite !app_length, firstn_length, skipn_length. lia.
Qed.

Lemma nth_splice {A} k (w l : list A) i dflt :
  k + length w <= length l ->
  nth i (splice k w l) dflt =
  if (k <=? i) && (i <? k + length w) then nth (i - k) w dflt else nth i l dflt.
Proof.
  intros H. unfold splice.
  assert (Lk : length (firstn k l) = k) by (rewrite firstn_length; lia).
  destruct (k <=? i) eqn:E1; cbn [andb].
  - apply Nat.leb_le in E1. rewrite app_nth2 by lia. rewrite Lk.
    destruct (i <? k + length w) eqn:E2.
    + apply Nat.ltb_lt in E2. rewrite app_nth1 by lia. reflexivity.
    + apply Nat.ltb_ge in E2. rewrite app_nth2 by lia. rewrite nth_skipn. f_equal. lia.
  - apply Nat.leb_gt in E1. rewrite app_nth1 by lia. now apply nth_firstn.
Qed.

Lemma nth_map_seq {A} (f : nat -> A) k n i dflt :
  i < n -> nth i (map f (seq k n)) dflt = f (k + i).
Proof.
  intros H. rewrite nth_indep with (d' := f 0) by (rewrite map_length, seq_length; lia).
  rewrite map_nth. now rewrite seq_nth.
Qed.
