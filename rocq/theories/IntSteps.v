(** * Integer side of hlll: elementary column steps and their invariant *)
From Coq Require Import ZArith Lia List Bool Arith Relations.
From Verif Require Import Base Spec Mat FP Hlll.
Import ListNotations.

(** ** Column operations as products *)

Lemma colop_ext {T} (df : T) f g b l M j k :
  (forall v w, f v w = g v w) -> colop df f b l M j k = colop df g b l M j k.
Proof.
  intros H. unfold colop, zipcol, imap. f_equal.
  generalize (col M j), 0. induction l0 as [|x l0 IH]; intros m; cbn [imap_from]; [reflexivity|].
  rewrite IH. destruct ((b <=? m) && (m <? b + l)); [now rewrite H|reflexivity].
Qed.

Local Open Scope Z_scope.

Definition redf (a : Z) (v w : Z) : Z := v - a * w.

(** rows of column j from r on are zero *)
Definition zero_from (m : nat) (M : mat Z) (j r : nat) : Prop :=
  forall i, (r <= i < m)%nat -> fn M i j = 0.

Lemma red_mmul m d M k i a r : wfm m d M -> (i < d)%nat -> (k < d)%nat ->
  zero_from m M i r ->
  meq m d (fn (colop 0 (redf a) 0 r M k i)) (mmul d (fn M) (elem_add i k (- a))).
Proof.
  intros W Hi Hk Z0 p q Hp Hq. rewrite mmul_elem_add by assumption.
  unfold fn at 1. rewrite (mget_colop 0 _ m d) by assumption. cbn [Nat.leb andb].
  destruct (Nat.eqb q k) eqn:E; cbn [andb].
  - apply Nat.eqb_eq in E. subst q. rewrite Nat.add_0_l. destruct (p <? r)%nat eqn:L.
    + unfold redf, fn. ring.
    + apply Nat.ltb_ge in L. fold (fn M p k). rewrite (Z0 p) by lia. ring.
  - unfold fn. ring.
Qed.

Lemma swap_mmul m d M p q : wfm m d M -> (p < d)%nat -> (q < d)%nat ->
  meq m d (fn (colswap M p q)) (mmul d (fn M) (elem_swap p q)).
Proof.
  intros W Hp Hq i j Hi Hj. rewrite mmul_elem_swap by assumption.
  unfold fn. now rewrite (mget_colswap 0 m d).
Qed.

Lemma zero_from_red m d M k i a r j s : wfm m d M -> (k < d)%nat ->
  zero_from m M j s -> (j = k -> zero_from m M i s) ->
  zero_from m (colop 0 (redf a) 0 r M k i) j s.
Proof.
  intros W Hk H1 H2 p Hp. unfold fn. rewrite (mget_colop 0 _ m d) by (try assumption; lia).
  destruct (Nat.eqb j k) eqn:E; cbn [andb].
  - apply Nat.eqb_eq in E. destruct ((0 <=? p)%nat && (p <? 0 + r)%nat)%bool; [|now apply H1].
    unfold redf. specialize (H1 p Hp). specialize (H2 E p Hp). unfold fn in *. subst j. rewrite H1, H2. ring.
  - now apply H1.
Qed.

Lemma zero_from_swap m d M p q j s : wfm m d M -> (p < d)%nat -> (q < d)%nat ->
  zero_from m M (if Nat.eqb j p then q else if Nat.eqb j q then p else j) s ->
  zero_from m (colswap M p q) j s.
Proof.
  intros W Hp Hq H i Hi. unfold fn. rewrite (mget_colswap 0 m d) by assumption. now apply H.
Qed.

Lemma zero_from_le m M j r s : (r <= s)%nat -> zero_from m M j r -> zero_from m M j s.
Proof. intros L H i Hi. apply H. lia. Qed.

Lemma mmul_mul_r n d A V E M : meq n d M (mmul d (mmul d A V) E) -> meq n d M (mmul d A (mmul d V E)).
Proof. intros H i j Hi Hj. rewrite H by assumption. apply mmul_assoc. Qed.

(** ** Steps *)

Section Steps.
Variable c : cfg.
Notation n := (cn c).
Notation d := (cd c).

Inductive istep : ist -> ist -> Prop :=
| is_red s k i a :
    (i < k)%nat -> (k < d)%nat ->
    istep s (mkI (colop 0 (redf a) 0 (nth i (iS s) 0%nat) (iB s) k i)
                 (if ctransf c then colop 0 (redf a) 0 (min d (nth i (iS s) 0%nat)) (iU s) k i else iU s)
                 (iS s))
| is_swap s k : (1 <= k < d)%nat -> istep s (swap_i c s k).

(** the parallel update: B only, all rows below the maximum of the structure *)
Inductive istepP : ist -> ist -> Prop :=
| is_redP s k i a r :
    (i < k)%nat -> (k < d)%nat -> (nth i (iS s) 0 <= r)%nat ->
    istepP s (mkI (colop 0 (redf a) 0 r (iB s) k i) (iU s) (iS s)).

Definition isteps := clos_refl_trans ist istep.
Definition istepsP := clos_refl_trans ist (fun s t => istep s t \/ istepP s t).

Lemma isteps_P s t : isteps s t -> istepsP s t.
Proof.
  induction 1 as [x y H|x|x y z _ H1 _ H2].
  - apply rt_step. now left.
  - apply rt_refl.
  - eapply rt_trans; eassumption.
Qed.

Lemma isteps_trans s t u : isteps s t -> isteps t u -> isteps s u.
Proof. apply rt_trans. Qed.
Lemma istepsP_trans s t u : istepsP s t -> istepsP t u -> istepsP s u.
Proof. apply rt_trans. Qed.

Definition smono (S : list nat) : Prop := forall i j, (i <= j < d)%nat -> (nth i S 0 <= nth j S 0)%nat.

(** well-formed basis with a valid structure *)
Record bok (s : ist) : Prop := {
  b_wf : wfm n d (iB s);
  b_len : length (iS s) = d;
  b_le : forall j, (j < d)%nat -> (nth j (iS s) 0 <= n)%nat;
  b_mono : smono (iS s);
  b_zero : forall j, (j < d)%nat -> zero_from n (iB s) j (nth j (iS s) 0%nat) }.

Lemma swap_structure S k : length S = d -> smono S -> (1 <= k < d)%nat ->
  smono (lupd S (k - 1) (nth k S 0%nat)).
Proof.
  intros L M Hk i j Hij.
  assert (E : forall q, nth q (lupd S (k - 1) (nth k S 0%nat)) 0%nat
                        = if Nat.eqb q (k - 1) then nth k S 0%nat else nth q S 0%nat).
  { intros q. rewrite nth_lupd, L. replace (k - 1 <? d)%nat with true; [now rewrite andb_true_r|].
    symmetry. apply Nat.ltb_lt. lia. }
  rewrite !E.
  destruct (Nat.eqb_spec i (k - 1)) as [E1|E1]; destruct (Nat.eqb_spec j (k - 1)) as [E2|E2].
  - lia.
  - apply M. lia.
  - apply M. lia.
  - apply M. lia.
Qed.

Lemma zero_from_swap_struct m M S k j : wfm m d M -> length S = d -> smono S -> (1 <= k < d)%nat ->
  (forall j, (j < d)%nat -> zero_from m M j (nth j S 0%nat)) -> (j < d)%nat ->
  zero_from m (colswap M (k - 1) k) j (nth j (lupd S (k - 1) (nth k S 0%nat)) 0%nat).
Proof.
  intros W L Mo Hk H Hj. apply (zero_from_swap m d); try lia; try assumption.
  rewrite nth_lupd, L. replace (k - 1 <? d)%nat with true by (symmetry; apply Nat.ltb_lt; lia).
  rewrite andb_true_r.
  destruct (Nat.eqb j (k - 1)) eqn:E1.
  - apply H. lia.
  - destruct (Nat.eqb j k) eqn:E2.
    + apply Nat.eqb_eq in E2. subst j. apply zero_from_le with (nth (k - 1) S 0%nat).
      * apply Mo. lia.
      * apply H. lia.
    + apply H. lia.
Qed.

(** effect of one step on a basis, as a product by an elementary matrix *)
Definition elem_ok (E : zmat) : Prop := unimodular d E.

Lemma istep_bok s t : bok s -> istep s t \/ istepP s t ->
  bok t /\ exists E, unimodular d E /\ meq n d (fn (iB t)) (mmul d (fn (iB s)) E).
Proof.
  intros H [St|St].
  - destruct St as [s k i a Hik Hk | s k Hk]; cbn [iB iS].
    + split.
      * split; cbn [iB iS]; try apply H.
        { apply wfm_colop, H. }
        intros j Hj. apply (zero_from_red n d); try apply H; try lia.
        intros ->. apply zero_from_le with (nth i (iS s) 0%nat); [|apply H; lia].
        apply H. lia.
      * exists (elem_add i k (- a)). split; [apply unimodular_elem_add; lia|].
        apply red_mmul; try apply H; lia.
    + split.
      * split; cbn [iB iS swap_i].
        { apply wfm_colswap; try apply H; lia. }
        { rewrite lupd_length. apply H. }
        { intros j Hj. rewrite nth_lupd. destruct (_ && _)%bool; apply H; lia. }
        { apply swap_structure; try apply H; lia. }
        intros j Hj. apply zero_from_swap_struct; try apply H; try lia.
      * exists (elem_swap (k - 1) k). split; [apply unimodular_elem_swap; lia|].
        apply swap_mmul; try apply H; lia.
  - destruct St as [s k i a r Hik Hk Hr]; cbn [iB iS].
    split.
    * split; cbn [iB iS]; try apply H.
      { apply wfm_colop, H. }
      intros j Hj. apply (zero_from_red n d); try apply H; try lia.
      intros ->. apply zero_from_le with (nth i (iS s) 0%nat); [|apply H; lia].
      apply H. lia.
    * exists (elem_add i k (- a)). split; [apply unimodular_elem_add; lia|].
      apply red_mmul; try apply H; try lia.
      apply zero_from_le with (nth i (iS s) 0%nat); [assumption|]. apply H. lia.
Qed.

Lemma istepsP_bok s t : istepsP s t -> bok s ->
  bok t /\ exists V, unimodular d V /\ meq n d (fn (iB t)) (mmul d (fn (iB s)) V).
Proof.
  intros St. induction St as [x y H|x|x y z _ H1 _ H2]; intros Hb.
  - now apply istep_bok.
  - split; [assumption|]. exists mid. split; [apply unimodular_id|]. apply meq_sym, mmul_id_r.
  - destruct (H1 Hb) as (Hy & V & UV & EV). destruct (H2 Hy) as (Hz & W & UW & EW).
    split; [assumption|]. exists (mmul d V W). split; [now apply unimodular_mul|].
    apply meq_trans with (mmul d (fn (iB y)) W); [assumption|].
    apply mmul_mul_r. apply mmul_ext; [assumption|apply meq_refl].
Qed.

(** ** With the transformation matrix *)

Record uok (s : ist) : Prop := {
  u_wf : wfm d d (iU s);
  u_zero : forall j, (j < d)%nat -> zero_from d (iU s) j (nth j (iS s) 0%nat) }.

Lemma istep_uok s t : ctransf c = true -> bok s -> uok s -> istep s t ->
  uok t /\ exists E, unimodular d E /\ meq n d (fn (iB t)) (mmul d (fn (iB s)) E)
                     /\ meq d d (fn (iU t)) (mmul d (fn (iU s)) E).
Proof.
  intros T H G St. destruct St as [s k i a Hik Hk | s k Hk]; unfold swap_i; rewrite T; cbn [iB iS iU].
  - assert (Zm : zero_from d (iU s) i (min d (nth i (iS s) 0%nat))).
    { intros p Hp. apply G; lia. }
    split.
    + split; cbn [iU iS].
      * apply wfm_colop, G.
      * intros j Hj. apply (zero_from_red d d); try apply G; try lia.
        intros ->. apply zero_from_le with (nth i (iS s) 0%nat); [|apply G; lia].
        apply H. lia.
    + exists (elem_add i k (- a)). split; [apply unimodular_elem_add; lia|]. split.
      * apply red_mmul; try apply H; lia.
      * apply red_mmul; try apply G; try lia. exact Zm.
  - split.
    + split; cbn [iU iS].
      * apply wfm_colswap; try apply G; lia.
      * intros j Hj. apply zero_from_swap_struct; try apply G; try apply H; try lia.
    + exists (elem_swap (k - 1) k). split; [apply unimodular_elem_swap; lia|]. split.
      * apply swap_mmul; try apply H; lia.
      * apply swap_mmul; try apply G; lia.
Qed.

Lemma isteps_uok s t : isteps s t -> ctransf c = true -> bok s -> uok s ->
  bok t /\ uok t /\ exists E, unimodular d E /\ meq n d (fn (iB t)) (mmul d (fn (iB s)) E)
                     /\ meq d d (fn (iU t)) (mmul d (fn (iU s)) E).
Proof.
  intros St T. induction St as [x y H|x|x y z _ H1 _ H2]; intros Hb Hu.
  - destruct (istep_bok x y Hb (or_introl H)) as [Hb' _].
    destruct (istep_uok x y T Hb Hu H) as [Hu' HE]. auto.
  - split; [assumption|]. split; [assumption|]. exists mid. split; [apply unimodular_id|].
    split; apply meq_sym, mmul_id_r.
  - destruct (H1 Hb Hu) as (Hby & Huy & V & UV & EV & FV).
    destruct (H2 Hby Huy) as (Hbz & Huz & W & UW & EW & FW).
    split; [assumption|]. split; [assumption|]. exists (mmul d V W). split; [now apply unimodular_mul|].
    split; (eapply meq_trans; [eassumption|]); apply mmul_mul_r;
      (apply mmul_ext; [assumption|apply meq_refl]).
Qed.

End Steps.
