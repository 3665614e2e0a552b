(** * The fuel of the model only decides whether the loops are followed to their end: a run that ends (with a result or with
    an access out of bounds) gives the same outcome with any larger fuel *)
From Coq Require Import ZArith Lia List Bool Arith.
From Verif Require Import Base Spec Mat FP Hlll.
Import ListNotations.

Definition upto {A} (a b : res A) : Prop := a <> NoFuel -> b = a.

Lemma upto_refl {A} (a : res A) : upto a a.
Proof. intros _. reflexivity. Qed.
Lemma upto_ok {A} (a b : res A) x : upto a b -> a = Ok x -> b = Ok x.
Proof. intros H ->. apply H. discriminate. Qed.
Lemma upto_bind {A B} (a a' : res A) (f f' : A -> res B) : upto a a' -> (forall x, upto (f x) (f' x)) ->
  upto (bind a f) (bind a' f').
Proof.
  intros H HF N. destruct a as [x| |]; cbn [bind] in *.
  - rewrite H by discriminate. cbn [bind]. now apply HF.
  - rewrite H by discriminate. reflexivity.
  - contradiction.
Qed.
Lemma upto_guard {A} b (x y : res A) : upto x y -> upto (guard b x) (guard b y).
Proof. intros H. destruct b; [exact H|apply upto_refl]. Qed.

Section Model.
Context {F : Type} (fp : fpops F) (c : cfg).

Lemma hs_loop_fuel m : forall m' s f vx b kappa start, (m <= m')%nat ->
  upto (hs_loop fp c m s f vx b kappa start) (hs_loop fp c m' s f vx b kappa start).
Proof.
  induction m as [|m IH]; intros m' s f vx b kappa start Hm; [intros N; now contradiction N|].
  destruct m' as [|m']; [lia|]. cbn [hs_loop]. apply upto_bind; [apply upto_refl|].
  intros [[[s1 f1] vx1] sd]. destruct sd; [|apply upto_refl]. apply upto_bind; [apply upto_refl|]. intros f3.
  destruct (_ && _)%bool; [apply upto_refl|]. apply IH. lia.
Qed.

Lemma seysen_loop_fuel m : forall m' s f vx tmp b b' kappa, (m <= m')%nat ->
  upto (seysen_loop fp c m s f vx tmp b b' kappa) (seysen_loop fp c m' s f vx tmp b b' kappa).
Proof.
  induction m as [|m IH]; intros m' s f vx tmp b b' kappa Hm; [intros N; now contradiction N|].
  destruct m' as [|m']; [lia|]. cbn [seysen_loop]. apply upto_bind; [apply upto_refl|].
  intros [[[[s1 f1] vx1] tmp1] sd]. destruct sd; [|apply upto_refl]. apply upto_bind; [apply upto_refl|]. intros f3.
  destruct (negb _); [apply upto_refl|]. apply IH. lia.
Qed.

Lemma reduce_fuel m m' s f kappa : (m <= m')%nat -> upto (reduce fp c m s f kappa) (reduce fp c m' s f kappa).
Proof.
  intros Hm. unfold reduce. destruct (_ <? _)%Z.
  - unfold hsizereduce. apply upto_bind; [apply upto_refl|]. intros f1. now apply hs_loop_fuel.
  - unfold seysenreduce. apply upto_bind; [apply upto_refl|]. intros f1. apply upto_bind; [now apply seysen_loop_fuel|].
    intros [s2 f2]. apply upto_refl.
Qed.

Lemma hlll_loop_fuel m : forall m' delta vb s f kappa pk pR q, (m <= m')%nat ->
  upto (hlll_loop fp c m delta vb s f kappa pk pR q) (hlll_loop fp c m' delta vb s f kappa pk pR q).
Proof.
  induction m as [|m IH]; intros m' delta vb s f kappa pk pR q Hm.
  - cbn [hlll_loop]. destruct m' as [|m']; cbn [hlll_loop]; destruct (negb _); try apply upto_refl; intros N; now contradiction N.
  - destruct m' as [|m']; [lia|]. cbn [hlll_loop]. destruct (negb _); [apply upto_refl|].
    apply upto_bind; [apply upto_refl|]. intros f1. apply upto_bind; [apply reduce_fuel; lia|]. intros [[s2 f2] bad].
    destruct bad; [apply upto_refl|]. apply upto_bind; [apply upto_refl|]. intros [lov newt].
    destruct (fle fp lov newt).
    + apply upto_guard. apply upto_bind; [apply upto_refl|]. intros f3. apply upto_bind; [apply upto_refl|]. intros rkk.
      destruct (_ && _)%bool; [apply upto_refl|]. apply IH. lia.
    + apply upto_guard. apply IH. lia.
Qed.
End Model.

Lemma hlll_fuel {F} (fp : fpops F) m m' delta vb junk L : (m <= m')%nat ->
  upto (hlll fp m delta vb junk L) (hlll fp m' delta vb junk L).
Proof.
  intros Hm. unfold hlll. apply upto_bind; [now apply hlll_loop_fuel|]. intros [[[r s] f] q]. apply upto_refl.
Qed.
