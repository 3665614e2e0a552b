(** * The machine-integer program refines the exact one *)
From Coq Require Import ZArith Lia List Bool Arith.
From Verif Require Import Base Spec Mat FP Hlll Machine.
Import ListNotations.

(** [m] is [p], or - only if [ub] - undefined *)
Definition rle {A} (ub : Prop) (m p : res A) : Prop := m = p \/ (ub /\ m = UB).

Section Ref.
Variable ub : Prop.

Lemma rle_refl {A} (m : res A) : rle ub m m.
Proof. now left. Qed.

Lemma rle_bind {A B} (m p : res A) (k k' : A -> res B) : rle ub m p -> (forall a, m = Ok a -> rle ub (k a) (k' a)) ->
  rle ub (bind m k) (bind p k').
Proof.
  intros [->|[U ->]] H; [|right; auto]. destruct p as [a| |]; cbn; [|now left|now left]. now apply H.
Qed.

Lemma rle_guard {A} b (m p : res A) : rle ub m p -> rle ub (guard b m) (guard b p).
Proof. intros H. destruct b; cbn; [exact H|now left]. Qed.

Lemma rle_mfold {X A} (f g : X -> A -> res A) l : (forall x a, rle ub (f x a) (g x a)) ->
  forall a, rle ub (mfold f l a) (mfold g l a).
Proof.
  intros H. induction l as [|x l IH]; intros a; cbn [mfold]; [now left|]. apply rle_bind; auto.
Qed.

Lemma mzip_rle fm f ibeg l w v : (forall a b, rle ub (fm a b) (Ok (f a b))) ->
  forall k, rle ub (mzip fm ibeg l k v w)
      (Ok (imap_from k (fun i x => if ((ibeg <=? i) && (i <? ibeg + l))%bool then f x (nth i w 0%Z) else x) v)).
Proof.
  intros H. induction v as [|x v IH]; intros k; cbn [mzip imap_from]; [now left|].
  set (t := imap_from (S k) _ v) in *.
  destruct (_ && _)%bool eqn:E.
  - destruct (H x (nth k w 0%Z)) as [->|[U ->]]; cbn [bind]; [|now right].
    destruct (IH (S k)) as [->|[U ->]]; cbn [bind]; [now left|now right].
  - cbn [bind]. destruct (IH (S k)) as [->|[U ->]]; cbn [bind]; [now left|now right].
Qed.

Lemma mcolop_rle fm f ibeg l M j k : (forall a b, rle ub (fm a b) (Ok (f a b))) ->
  rle ub (mcolop fm ibeg l M j k) (Ok (colop 0%Z f ibeg l M j k)).
Proof.
  intros H. unfold mcolop, colop, zipcol, imap.
  destruct (mzip_rle fm f ibeg l (col M k) (col M j) H 0) as [->|[U ->]]; cbn [bind]; [now left|now right].
Qed.

Context {F : Type} (fp : fpops F) (c : cfg) (zt : zty).

(** results are exact whenever there is one *)
Hypothesis ZR : forall z, rle ub (zres zt z) (Ok z).
Hypothesis ZS : forall a e, rle ub (zshl zt a e) (Ok (Z.shiftl a e)).

Ltac zr := match goal with
  | |- context [zres zt ?z] => let U := fresh in destruct (ZR z) as [->|[U ->]]; cbn [bind]; [|now right]
  | |- context [zshl zt ?a ?e] => let U := fresh in destruct (ZS a e) as [->|[U ->]]; cbn [bind]; [|now right]
  end.

(** the coefficient and the column operation together *)
Lemma setf_rle lx expo x {A} (K : Z -> res A) (p : res A) :
  (forall xz, (forall v w, rle ub (bop_m c zt lx expo xz v w) (Ok (bop c lx expo (fset_f fp x) v w))) -> rle ub (K xz) p) ->
  rle ub (bind (setf_m fp c zt lx expo x) K) p.
Proof.
  intros H. unfold setf_m. destruct (_ || clong c)%bool eqn:E; cbn [bind].
  - apply H. intros v w. unfold bop_m, bop. apply orb_true_iff in E as [E|E].
    + apply andb_true_iff in E as [-> E]. apply orb_true_iff in E as [E|E].
      * rewrite E. zr. now left.
      * destruct (lx =? 1)%Z; [zr; now left|]. rewrite E. zr. now left.
    + rewrite E. destruct (expo =? 0)%Z; [destruct (lx =? 1)%Z; [zr; now left|]; destruct (lx =? -1)%Z; [zr; now left|]|].
      * zr. zr. now left.
      * zr. zr. zr. now left.
  - zr. apply orb_false_iff in E as [E E2]. apply H. intros v w. unfold bop_m, bop. rewrite E2.
    destruct (expo =? 0)%Z; cbn [andb] in E.
    + apply orb_false_iff in E as [-> ->]. zr. zr. now left.
    + zr. zr. now left.
Qed.

Lemma size_update_step_rle kappa i st : rle ub (size_update_step_m fp c zt kappa i st) (size_update_step fp c kappa i st).
Proof.
  destruct st as [[s f] b]. unfold size_update_step_m, size_update_step.
  apply rle_bind; [apply rle_refl|]. intros rik _. apply rle_bind; [apply rle_refl|]. intros rii _.
  set (x := frnd fp (fdiv fp rik rii)). destruct (fnz fp x); [|now left].
  destruct (fgse fp x) as [lx expo]. apply rle_guard. apply setf_rle. intros xz Hx.
  destruct (mcolop_rle _ _ 0 (nth i (iS s) 0) (iB s) kappa i Hx) as [->|[U ->]]; cbn [bind]; [|now right].
  destruct (ctransf c); cbn [bind]; [|now left].
  destruct (mcolop_rle _ _ 0 (min (cd c) (nth i (iS s) 0)) (iU s) kappa i Hx) as [->|[U ->]]; cbn [bind]; [now left|now right].
Qed.

Lemma psize_thread_rle kappa from vx nmax Sn l B :
  rle ub (psize_thread_m fp c zt kappa from vx nmax Sn l B) (Ok (psize_thread fp c kappa from vx nmax Sn l B)).
Proof.
  unfold psize_thread_m, psize_thread. revert B. induction (down from 0) as [|i is IH]; intros B; cbn [mfold fold_left]; [now left|].
  unfold psize_thread_step_m at 1, psize_thread_step at 2. destruct (fnz fp _); [|cbn [bind]; apply IH].
  destruct (fgse fp _) as [lx expo].
  destruct (setf_rle lx expo (nth i vx (fzero fp)) (fun xz => mcolop (bop_m c zt lx expo xz) (slice_beg nmax Sn l) (slice_len nmax Sn l) B kappa i)
     (Ok (colop 0%Z (bop c lx expo (fset_f fp (nth i vx (fzero fp)))) (slice_beg nmax Sn l) (slice_len nmax Sn l) B kappa i))) as [->|[U ->]].
  - intros xz Hx. now apply mcolop_rle.
  - cbn [bind]. apply IH.
  - now right.
Qed.

Lemma psize_update_B_rle s kappa from vx : rle ub (psize_update_B_m fp c zt s kappa from vx) (psize_update_B fp c s kappa from vx).
Proof.
  unfold psize_update_B_m, psize_update_B. apply rle_guard.
  set (ls := seq 0 (cS c)). generalize (iB s). induction ls as [|l ls IH]; intros B; cbn [mfold fold_left bind]; [now left|].
  destruct (psize_thread_rle kappa from vx (psize_nmax s from) (cS c) l B) as [->|[U ->]]; cbn [bind]; [|now right].
  apply IH.
Qed.

Lemma hs_pass_rle s f vx kappa start : rle ub (hs_pass_m fp c zt s f vx kappa start) (hs_pass fp c s f vx kappa start).
Proof.
  unfold hs_pass_m, hs_pass. destruct (_ || _)%bool.
  - apply rle_bind; [|intros [[s1 f1] sd] _; apply rle_refl]. unfold size_update_m, size_update. apply rle_mfold.
    intros i st. apply size_update_step_rle.
  - apply rle_bind; [apply rle_refl|]. intros [[f1 vx1] sd] _. apply rle_bind; [apply psize_update_B_rle|]. intros s1 _. apply rle_refl.
Qed.

Lemma hs_loop_rle fuel : forall s f vx pn kappa start,
  rle ub (hs_loop_m fp c zt fuel s f vx pn kappa start) (hs_loop fp c fuel s f vx pn kappa start).
Proof.
  induction fuel as [|fuel IH]; intros; cbn [hs_loop_m hs_loop]; [now left|].
  apply rle_bind; [apply hs_pass_rle|]. intros [[[s1 f1] vx1] sd] _. destruct sd; [|now left].
  cbv zeta. apply rle_bind; [apply rle_refl|]. intros f3 _. destruct (_ && _)%bool; [apply rle_refl|apply IH].
Qed.

Lemma seysen_update_step_rle kappa rd i st :
  rle ub (seysen_update_step_m fp c zt kappa rd i st) (seysen_update_step fp c kappa rd i st).
Proof.
  destruct st as [[[s f] vx] b]. unfold seysen_update_step_m, seysen_update_step.
  set (x := frnd fp (nth i vx (fzero fp))). destruct (fnz fp x); [|now left].
  destruct (fgse fp x) as [lx expo]. apply rle_guard. apply setf_rle. intros xz Hx.
  destruct (mcolop_rle _ _ 0 (nth i (iS s) 0) (iB s) kappa i Hx) as [->|[U ->]]; cbn [bind]; [|now right].
  destruct (ctransf c); cbn [bind]; [|now left].
  destruct (mcolop_rle _ _ 0 (min (cd c) (nth i (iS s) 0)) (iU s) kappa i Hx) as [->|[U ->]]; cbn [bind]; [now left|now right].
Qed.

Lemma seysen_block_rle kappa dec bd st : rle ub (seysen_block_m fp c zt kappa dec bd st) (seysen_block fp c kappa dec bd st).
Proof.
  destruct st as [[[[s f] vx] tmp] b]. unfold seysen_block_m, seysen_block.
  apply rle_bind; [apply rle_refl|]. intros tmp1 _. apply rle_bind; [apply rle_refl|]. intros [vx1 tmp2] _.
  destruct (_ || _)%bool; [|now left]. apply rle_bind; [|intros [[[s1 f1] vx2] sd] _; apply rle_refl].
  apply rle_mfold. intros. apply seysen_update_step_rle.
Qed.

Lemma seysen_loop_rle fuel : forall s f vx tmp n0 n1 kappa,
  rle ub (seysen_loop_m fp c zt fuel s f vx tmp n0 n1 kappa) (seysen_loop fp c fuel s f vx tmp n0 n1 kappa).
Proof.
  induction fuel as [|fuel IH]; intros; cbn [seysen_loop_m seysen_loop]; [now left|].
  apply rle_bind; [apply rle_mfold; intros; apply seysen_block_rle|]. intros [[[[s1 f1] vx1] tmp1] sd] _. destruct sd; [|now left].
  cbv zeta. apply rle_bind; [apply rle_refl|]. intros f3 _. destruct (negb _); [apply rle_refl|apply IH].
Qed.

Lemma reduce_rle fuel s f kappa : rle ub (reduce_m fp c zt fuel s f kappa) (reduce fp c fuel s f kappa).
Proof.
  unfold reduce_m, reduce. destruct (cseysen c <? 1)%Z.
  - apply rle_bind; [apply rle_refl|]. intros f1 _. apply hs_loop_rle.
  - unfold seysenreduce_m, seysenreduce. cbv zeta. apply rle_bind; [apply rle_refl|]. intros f1 _.
    apply rle_bind; [apply seysen_loop_rle|]. intros [s2 f2] _. apply rle_refl.
Qed.

Lemma hlll_loop_rle fuel delta vb : forall s f kappa pk p q,
  rle ub (hlll_loop_m fp c zt fuel delta vb s f kappa pk p q) (hlll_loop fp c fuel delta vb s f kappa pk p q).
Proof.
  induction fuel as [|fuel IH]; intros; cbn [hlll_loop_m hlll_loop]; destruct (negb _); try now left.
  apply rle_bind; [apply rle_refl|]. intros f1 _. apply rle_bind; [apply reduce_rle|]. intros [[s2 f2] bad] _.
  destruct bad; [now left|]. apply rle_bind; [apply rle_refl|]. intros [lt nt] _. cbv zeta.
  destruct (fle fp lt nt); apply rle_guard; [|apply IH].
  apply rle_bind; [apply rle_refl|]. intros f3 _. apply rle_bind; [apply rle_refl|]. intros rkk _.
  destruct (_ && _)%bool; [now left|apply IH].
Qed.

End Ref.

Lemma hlll_rle (ub : Prop) {F} (fp : fpops F) zt fuel delta vb junk L :
  (forall z, rle ub (zres zt z) (Ok z)) -> (forall a e, rle ub (zshl zt a e) (Ok (Z.shiftl a e))) ->
  rle ub (hlll_m fp zt fuel delta vb junk L) (hlll fp fuel delta vb junk L).
Proof.
  intros ZR ZS. unfold hlll_m, hlll. apply rle_bind; [now apply hlll_loop_rle|]. intros [[[r s] f] q] _. apply rle_refl.
Qed.

Lemma zword_res w z : rle True (zres (zword w) z) (Ok z).
Proof. cbn [zword zres]. destruct (in_word w z); [now left|right; auto]. Qed.

Lemma zword_shl w a e : rle True (zshl (zword w) a e) (Ok (Z.shiftl a e)).
Proof.
  cbn [zword zshl]. destruct (Z.leb_spec 0 e).
  - rewrite Z.shiftl_mul_pow2 by assumption. destruct (_ && _)%bool; [now left|right; auto].
  - replace (Z.shiftr a (- e)) with (Z.shiftl a e) by (unfold Z.shiftr; now rewrite Z.opp_involutive).
    destruct (_ <? _)%Z; [now left|right; auto].
Qed.
