(** * The LONG / NO_LONG flag only selects how a multiple is added (default reduction) *)
From Coq Require Import ZArith Lia List Bool Arith.
From Verif Require Import Base Spec Mat FP Hlll IntSteps HlllInt.
Import ListNotations.

(** get_si_exp and set_f denote the same integer *)
Definition conv_agree {F} (fp : fpops F) : Prop :=
  forall x : F, (0 <= snd (fgse fp x) /\ fst (fgse fp x) * 2 ^ snd (fgse fp x) = fset_f fp x)%Z.

Definition with_long (b : bool) (c : cfg) : cfg :=
  mkCfg (cn c) (cd c) (ctransf c) (ckmax c) (cnblov_max c) (cseysen c) b (cS c) (cthr c).

Lemma mfold_ext {A S} (f g : A -> S -> res S) l s : (forall a t, f a t = g a t) -> mfold f l s = mfold g l s.
Proof.
  intros E. revert s. induction l as [|a l IH]; intros s; cbn [mfold]; [reflexivity|].
  rewrite E. destruct (g a s); cbn; auto.
Qed.

Lemma bind_ext {A B} (m : res A) (k k' : A -> res B) : (forall a, k a = k' a) -> bind m k = bind m k'.
Proof. intros E. destruct m; cbn; auto. Qed.

Section LF.
Context {F : Type} (fp : fpops F) (AG : conv_agree fp) (c : cfg).
Notation c1 := (with_long true c).
Notation c0 := (with_long false c).

Lemma bop_long x v w : bop c1 (fst (fgse fp x)) (snd (fgse fp x)) (fset_f fp x) v w
                     = bop c0 (fst (fgse fp x)) (snd (fgse fp x)) (fset_f fp x) v w.
Proof.
  destruct (AG x) as [P E]. unfold bop. cbn [clong with_long]. rewrite <- E.
  destruct (Z.eqb_spec (snd (fgse fp x)) 0) as [->|N].
  - destruct (_ =? 1)%Z; [reflexivity|]. destruct (_ =? -1)%Z; [reflexivity|]. ring.
  - rewrite Z.shiftl_mul_pow2 by assumption. ring.
Qed.

Lemma size_update_step_long kappa i st : size_update_step fp c1 kappa i st = size_update_step fp c0 kappa i st.
Proof.
  destruct st as [[s f] dn]. unfold size_update_step.
  change (gR fp c1) with (gR fp c0). apply bind_ext. intros rik. apply bind_ext. intros rii.
  destruct (fnz fp _); [|reflexivity].
  pose proof (bop_long (frnd fp (fdiv fp rik rii))) as BL.
  destruct (fgse fp _) as [lx expo]. cbn [fst snd] in BL.
  rewrite !(colop_ext 0%Z (bop c1 lx expo _) (bop c0 lx expo _)) by (intros; apply BL). reflexivity.
Qed.

Lemma psize_thread_step_long kappa vx ib nl i B :
  psize_thread_step fp c1 kappa vx ib nl i B = psize_thread_step fp c0 kappa vx ib nl i B.
Proof.
  unfold psize_thread_step. destruct (fnz fp _); [|reflexivity].
  pose proof (bop_long (nth i vx (fzero fp))) as BL. destruct (fgse fp _) as [lx expo]. cbn [fst snd] in BL.
  apply colop_ext. intros; apply BL.
Qed.

Lemma fold_left_ext {A B} (f g : A -> B -> A) l a : (forall x b, f x b = g x b) -> fold_left f l a = fold_left g l a.
Proof. intros E. revert a. induction l as [|b l IH]; intros a; cbn; [reflexivity|]. now rewrite E. Qed.

Lemma psize_update_B_long s kappa from vx : psize_update_B fp c1 s kappa from vx = psize_update_B fp c0 s kappa from vx.
Proof.
  unfold psize_update_B. cbn [cd cn cS with_long].
  rewrite (fold_left_ext (fun B l => psize_thread fp c1 kappa from vx (psize_nmax s from) (cS c) l B)
             (fun B l => psize_thread fp c0 kappa from vx (psize_nmax s from) (cS c) l B)); [reflexivity|].
  intros B l. unfold psize_thread. apply fold_left_ext. intros; apply psize_thread_step_long.
Qed.

Lemma hs_pass_long s f vx kappa st : hs_pass fp c1 s f vx kappa st = hs_pass fp c0 s f vx kappa st.
Proof.
  unfold hs_pass. cbn [cS cthr with_long]. destruct (_ || _)%bool.
  - unfold size_update. rewrite (mfold_ext (size_update_step fp c1 kappa) (size_update_step fp c0 kappa));
      [reflexivity|]. intros; apply size_update_step_long.
  - change (size_update_R fp c1) with (size_update_R fp c0). apply bind_ext. intros [[f1 v1] sd].
    now rewrite psize_update_B_long.
Qed.

Lemma hs_loop_long fuel kappa st : forall s f vx ns,
  hs_loop fp c1 fuel s f vx ns kappa st = hs_loop fp c0 fuel s f vx ns kappa st.
Proof.
  induction fuel as [|fuel IH]; intros s f vx ns; cbn [hs_loop]; [reflexivity|].
  rewrite hs_pass_long. apply bind_ext. intros [[[s1 f1] v1] sd]. destruct sd; [|reflexivity].
  change (householder_r fp c1) with (householder_r fp c0). apply bind_ext. intros f3.
  change (mu_anomaly fp c1) with (mu_anomaly fp c0).
  destruct (_ && _)%bool; [reflexivity|apply IH].
Qed.

Lemma reduce_long fuel s f kappa : (cseysen c < 1)%Z -> reduce fp c1 fuel s f kappa = reduce fp c0 fuel s f kappa.
Proof.
  intros H. unfold reduce. cbn [cseysen with_long]. apply Z.ltb_lt in H. rewrite H.
  unfold hsizereduce. change (householder_r fp c1) with (householder_r fp c0).
  apply bind_ext. intros f1. apply hs_loop_long.
Qed.

Lemma hlll_loop_long fuel delta vb : (cseysen c < 1)%Z -> forall s f kappa pk pR q,
  hlll_loop fp c1 fuel delta vb s f kappa pk pR q = hlll_loop fp c0 fuel delta vb s f kappa pk pR q.
Proof.
  intros H. induction fuel as [|fuel IH]; intros s f kappa pk pR q; cbn [hlll_loop]; [reflexivity|].
  cbn [ckmax cnblov_max with_long]. destruct (negb _); [reflexivity|].
  change (hlll_enter fp c1) with (hlll_enter fp c0). apply bind_ext. intros f1.
  rewrite reduce_long by assumption. apply bind_ext. intros [[s2 f2] failed]. destruct failed; [reflexivity|].
  change (lovasz fp c1) with (lovasz fp c0). apply bind_ext. intros [lt nt].
  destruct (fle fp lt nt).
  - change (cd c1) with (cd c0). unfold guard. destruct (kappa <? cd c0); [|reflexivity].
    change (householder_v fp c1) with (householder_v fp c0). apply bind_ext. intros f3.
    change (gR fp c1) with (gR fp c0). apply bind_ext. intros rkk.
    destruct (_ && _)%bool; [reflexivity|]. apply IH.
  - change (cd c1) with (cd c0). unfold guard. destruct (kappa <? cd c0); [|reflexivity].
    change (swap_i c1) with (swap_i c0). apply IH.
Qed.

End LF.

(** object level: results of hlll on objects that differ by the flag *)
Lemma hlll_long {F} (fp : fpops F) J n d A u m vd fuel delta vb junk :
  conv_agree fp -> (m < 1)%Z ->
  match hlll fp fuel delta vb junk (new_lattice fp J n d A u m true vd),
        hlll fp fuel delta vb junk (new_lattice fp J n d A u m false vd) with
  | Ok (r, L), Ok (r', L') => r = r' /\ getbase L = getbase L' /\ getU L = getU L' /\ lc L = lc L'
  | UB, UB => True | NoFuel, NoFuel => True | _, _ => False
  end.
Proof.
  intros AG Hm. unfold hlll. cbn [lcfg li lf lc new_lattice].
  pose proof (hlll_loop_long fp AG (mkCfg n d u d 4294967295 m false 1 1000000) fuel delta vb Hm) as E.
  unfold with_long in E. cbn [cn cd ctransf ckmax cnblov_max cseysen cS cthr] in E.
  change (hlll_reset (mkCfg n d u d 4294967295 m true 1 1000000)) with (@hlll_reset F (mkCfg n d u d 4294967295 m false 1 1000000)).
  change (cd (mkCfg n d u d 4294967295 m true 1 1000000)) with (cd (mkCfg n d u d 4294967295 m false 1 1000000)).
  rewrite E. destruct (hlll_loop _ _ _ _ _ _ _ _ _ _ _) as [[[[r s] f] q]| |]; cbn [bind]; auto.
Qed.
