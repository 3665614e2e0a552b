(** * isreduced on any object: the computation is the one of a new object with the same integer data, at the temporary
    precision (hlll.cc 2275-2510, 2287-2291 for the precision) *)
From Coq Require Import ZArith Lia List Bool Arith Relations.
From Verif Require Import Base Spec Mat FP Hlll Hlll2 IntSteps HlllInt Structure Object Safety Fresh Cache Cache2 Cache3 Cache4 Cache5
  Cache6 Cache7 Lcond IsredTop.
Import ListNotations.

Section S.
Context {F : Type} (fp : fpops F).
Hypothesis EX : expo_nonneg fp.

(** householder() on the members reallocated by setprec *)
Lemma hh_setprec_safe c B J1 (f0 : fst_ F) : cd c <= cn c -> fwf c (set_nmax 0 f0) ->
  safe (fun g => fwf c (set_nmax 0 g)) (householder fp c B (setprec fp c J1 f0)).
Proof.
  intros ND Hf. pose proof (fwf_setprec' fp c J1 f0 Hf) as W1.
  assert (HH : forall f, householder fp c B (set_nmax 0 f) =
     match householder fp c B f with Ok g => Ok (set_nmax 0 g) | UB => UB | NoFuel => NoFuel end).
  { assert (G : forall l f, mfold (hh_col fp c B) l (set_nmax 0 f) =
      match mfold (hh_col fp c B) l f with Ok g => Ok (set_nmax 0 g) | UB => UB | NoFuel => NoFuel end).
    { induction l as [|k l IH]; intros f; cbn [mfold]; [reflexivity|].
      assert (HC : hh_col fp c B k (set_nmax 0 f) =
        match hh_col fp c B k f with Ok g => Ok (set_nmax 0 g) | UB => UB | NoFuel => NoFuel end).
      { unfold hh_col.
        assert (HM : forall ks g, mfold (hh_reflect fp c k) ks (set_nmax 0 g) =
          match mfold (hh_reflect fp c k) ks g with Ok g => Ok (set_nmax 0 g) | UB => UB | NoFuel => NoFuel end).
        { induction ks as [|a ks IHk]; intros g; cbn [mfold]; [reflexivity|].
          assert (HR : hh_reflect fp c k a (set_nmax 0 g) =
            match hh_reflect fp c k a g with Ok g => Ok (set_nmax 0 g) | UB => UB | NoFuel => NoFuel end).
          { unfold hh_reflect. setf.
            destruct (gcol _ (fV g) a a); cbn [bind]; auto.
            destruct (gcol _ (fR g) k a); cbn [bind]; auto.
            destruct (scalarprod _ _ _ _); cbn [bind]; auto.
            destruct (fmasub _ _ _ _ _ _ _ _ _); cbn [bind]; auto. }
          rewrite HR. destruct (hh_reflect _ _ _ _ g); cbn [bind]; auto. }
        setf.
        change (set_R (setcol_z fp (fR f) k (col B k) (cn c)) (set_nmax 0 f))
          with (set_nmax 0 (set_R (setcol_z fp (fR f) k (col B k) (cn c)) f)).
        rewrite HM. destruct (mfold _ _ _) as [g| |]; cbn [bind]; auto. setf.
        destruct (gR _ _ _ _ _); cbn [bind]; auto.
        destruct (gcol _ _ _ _); cbn [bind]; auto.
        destruct (fp_norm _ _ _); cbn [bind]; auto.
        destruct (if fle fp (fzero fp) a then _ else _). unfold guard.
        destruct (_ && _)%bool; auto. }
      rewrite HC. destruct (hh_col _ _ _ _ f); cbn [bind]; auto. }
    intros f. apply G. }
  assert (HS : safe (fun g => fwf c (set_nmax 0 g))
                    (householder fp c B (setprec fp c J1 f0))).
  { pose proof (householder_safe fp c B _ ltac:(lia) W1) as S.
    rewrite HH in S. destruct (householder _ _ _ _); cbn [safe] in *; auto. }
  exact HS.
Qed.

Lemma nf_bind {A C} (m : res A) (k : A -> res C) : m <> NoFuel -> (forall a, k a <> NoFuel) -> bind m k <> NoFuel.
Proof. destruct m; cbn; intros; congruence || auto. Qed.
Lemma nf_guard {A} b (m : res A) : m <> NoFuel -> guard b m <> NoFuel.
Proof. destruct b; cbn; congruence. Qed.
Lemma nf_mfold {A T} (f : A -> T -> res T) l : (forall a t, f a t <> NoFuel) -> forall t, mfold f l t <> NoFuel.
Proof. intros H. induction l as [|a l IH]; intros t; cbn [mfold]; [congruence|]. apply nf_bind; auto. Qed.
Lemma nf_sp v w l : scalarprod fp v w l <> NoFuel.
Proof. destruct v, w; cbn [scalarprod]; try congruence. apply nf_guard. congruence. Qed.
Lemma hh_nofuel c B (f : fst_ F) : householder fp c B f <> NoFuel.
Proof.
  apply nf_mfold. intros k t. unfold hh_col. apply nf_bind.
  { apply nf_mfold. intros q g. unfold hh_reflect. apply nf_bind; [apply nf_guard; congruence|]. intros v. apply nf_bind; [apply nf_guard; congruence|].
    intros r. apply nf_bind; [apply nf_sp|]. intros p. apply nf_bind; [apply nf_guard; congruence|]. congruence. }
  intros f2. apply nf_bind; [apply nf_guard; congruence|]. intros w0. apply nf_bind; [apply nf_guard; congruence|]. intros rc.
  apply nf_bind; [apply nf_bind; [apply nf_sp|congruence]|]. intros nr. destruct (if fle fp _ _ then _ else _). apply nf_guard. congruence.
Qed.

(** a structure that bounds the basis and independent columns *)
Lemma sgood_indep c s : bok c s -> independent (cn c) (cd c) (fn (iB s)) -> sgood c s.
Proof.
  intros Hb I. pose proof (independent_staircase _ _ _ I) as ST. split; [exact Hb| |apply Hb].
  intros j Hj. destruct (Nat.lt_ge_cases j (nth j (iS s) 0)) as [Q|Q]; [exact Q|]. exfalso.
  destruct (ST j Hj) as (i & k & Hi & Hk & N). apply N. destruct Hb as [_ L _ M Z].
  apply (Z k ltac:(lia) i). pose proof (M k j ltac:(lia)). lia.
Qed.

(** the swaps already counted and the verbosity play no role in a silent call *)
Definition addcnt (k v : Z) (q : cnt) : cnt := mkC (nblov q) (nbswaps q + k) (vdepth q + v).
Lemma loop_addcnt c hr k v fuel delta vb : forall s (f : fst_ F) kappa pk p q,
  hlll_loop_g fp c hr fuel delta vb s f kappa pk p (addcnt k v q) =
  match hlll_loop_g fp c hr fuel delta vb s f kappa pk p q with
  | Ok (r, s', f', q') => Ok (r, s', f', addcnt k v q') | UB => UB | NoFuel => NoFuel end.
Proof.
  assert (E1 : forall q, inc_lov (addcnt k v q) = addcnt k v (inc_lov q)) by (intros []; reflexivity).
  assert (E2 : forall q, inc_swap (addcnt k v q) = addcnt k v (inc_swap q)).
  { intros []. unfold inc_swap, addcnt. cbn. f_equal. lia. }
  assert (E3 : forall q, inc_depth vb (addcnt k v q) = addcnt k v (inc_depth vb q)).
  { intros []. destruct vb; [|reflexivity]. unfold inc_depth, addcnt. cbn. f_equal. lia. }
  induction fuel as [|fuel IH]; intros s f kappa pk p q; cbn [hlll_loop_g];
    change (nblov (addcnt k v q)) with (nblov q); destruct (negb _); rewrite ?E3; auto.
  destruct (hlll_enter_g _ _ _ _ _ _) as [f1| |]; cbn [bind]; auto.
  destruct (reduce_g _ _ _ _ _ _ _) as [[[s2 f2] fl]| |]; cbn [bind]; auto.
  destruct fl; [reflexivity|].
  destruct (lovasz _ _ _ _ _ _) as [[lt nt]| |]; cbn [bind]; auto.
  rewrite !E1. destruct (fle fp lt nt); unfold guard; destruct (kappa <? cd c); auto.
  - destruct (householder_v _ _ _ _) as [f3| |]; cbn [bind]; auto.
    destruct (gR _ _ _ _ _) as [rkk| |]; cbn [bind]; auto.
    destruct (_ && _)%bool; [now rewrite E3|]. apply IH.
  - rewrite E2. apply IH.
Qed.
Lemma hlll_addcnt k v fuel delta junk c s f q :
  hlll fp fuel delta false junk (mkL c s f (addcnt k v q)) =
  match hlll fp fuel delta false junk (mkL c s f q) with
  | Ok (r, L') => Ok (r, mkL (lcfg L') (li L') (lf L') (addcnt k v (lc L'))) | UB => UB | NoFuel => NoFuel end.
Proof.
  rewrite <- !hlll_g_real. unfold hlll_g. cbv zeta. cbn [lcfg li lf lc]. rewrite loop_addcnt.
  destruct (hlll_loop_g _ _ _ _ _ _ _ _ _ _ _ q) as [[[[r s'] f'] q']| |]; reflexivity.
Qed.

(** a new object with the integer data (basis, U, structure) and the configuration of L; no test, no swap counted *)
Definition object_on (J : junk_t (F := F)) (L : lattice F) : lattice F :=
  mkL (lcfg L) (li L) (init_f fp J (cn (lcfg L)) (cd (lcfg L))) (mkC 0 0 0).

Definition same_verdict (d : nat) (a : res (Z * Z * lattice F)) (b : res (Z * lattice F)) : Prop :=
  match a, b with
  | Ok (r, st, L1), Ok (r', L2) =>
      r = r' /\ getbase L1 = getbase L2 /\ getU L1 = getU L2 /\
      ((st = 0 /\ nblov (lc L2) = Z.of_nat d - 1) \/ (st = -1 /\ nblov (lc L2) <> Z.of_nat d - 1))%Z
  | NoFuel, NoFuel => True
  | _, _ => False
  end.

Lemma isreduced_object_on n d L : d <= n -> 2 <= d -> lsafe n d L -> bok (lcfg L) (li L) -> independent n d (fn (iB (li L))) ->
  const_struct (lcfg L) (li L) \/ zero_laws fp -> (cseysen (lcfg L) < 1)%Z \/ clong (lcfg L) = true ->
  forall fuel delta junk junk' J J1 J2,
  same_verdict d (isreduced fp fuel delta junk J1 J2 L) (hlll fp fuel delta false junk' (object_on J L)).
Proof.
  intros ND D2 LS Hb I SO ML fuel delta junk junk' J J1 J2.
  pose proof (isreduced_safe fp n d fuel delta junk J1 J2 L ND D2 LS) as SF.
  destruct LS as (En & Ed & CK & Hs & Hf). 
  assert (G : sgood (lcfg L) (li L)) by (apply sgood_indep; [exact Hb|now rewrite En, Ed]).
  unfold isreduced in *. cbv zeta in *. set (c := lcfg L) in *.
  pose proof (hh_setprec_safe c (iB (li L)) J1 (lf L) ltac:(lia) Hf) as S1.
  pose proof (hh_nofuel c (iB (li L)) (setprec fp c J1 (lf L))) as NF.
  destruct (householder fp c (iB (li L)) (setprec fp c J1 (lf L))) as [f2| |] eqn:H2; cbn [safe] in S1; try contradiction; try congruence.
  cbn [bind] in *. unfold gR, guard in *.
  replace ((0 <? cn c) && (1 <? cd c)) with true in * by (symmetry; apply andb_true_intro; split; apply Nat.ltb_lt; lia).
  replace ((1 <? cn c) && (1 <? cd c)) with true in * by (symmetry; apply andb_true_intro; split; apply Nat.ltb_lt; lia).
  cbn [bind] in *. pose proof (hh_keeps fp c _ _ _ H2) as K2.
  set (L2 := mkL c (li L) f2 (mkC 0 (nbswaps (lc L)) (vdepth (lc L)))) in *.
  assert (Z0 : forall (f : fst_ F), fBfp f = mtab (cn c) (cd c) (fun _ _ => fzero fp) ->
    const_struct c (li L) \/ (zero_laws fp /\ (forall j i, j < cd c -> nth j (iS (li L)) 0 <= i < cn c -> mget (fzero fp) (fBfp f) i j = fzero fp))).
  { intros f E. destruct SO as [SO|SO]; [now left|right]. split; [exact SO|]. intros j i Hj Hi. rewrite E.
    unfold mget. unfold col, mtab. rewrite nth_map_seq by assumption. rewrite nth_map_seq by lia. reflexivity. }
  assert (R2 : ready fp L2).
  { unfold ready, L2. cbn [lcfg li lf]. split; [congruence|]. split; [exact G|]. split; [exact S1|]. apply Z0. rewrite K2. reflexivity. }
  set (L0 := mkL c (li L) (init_f fp J (cn c) (cd c)) (mkC 0 (nbswaps (lc L)) (vdepth (lc L)))).
  assert (R0 : ready fp L0).
  { unfold ready, L0. cbn [lcfg li lf]. split; [congruence|]. split; [exact G|]. split; [|apply Z0; reflexivity].
    eapply fwf_cfg; [| |apply (fwf_mtab_new fp J (cn c) (cd c) false 0 true)]; reflexivity. }
  assert (SO2 : same_outcome fp (hlll fp fuel delta false junk L2) (hlll fp fuel delta false junk' L0)).
  { rewrite <- !hlll_g_real. apply hlll_g_same; auto using hr_sim_real. unfold relx. cbn [L2 lcfg]. tauto. }
  assert (E0 : hlll fp fuel delta false junk' L0 = match hlll fp fuel delta false junk' (object_on J L) with
    | Ok (r, L') => Ok (r, mkL (lcfg L') (li L') (lf L') (addcnt (nbswaps (lc L)) (vdepth (lc L)) (lc L'))) | UB => UB | NoFuel => NoFuel end).
  { unfold object_on. fold c. rewrite <- hlll_addcnt. reflexivity. }
  rewrite E0 in SO2.
  destruct (hlll fp fuel delta false junk L2) as [[r L3]| |] eqn:HL; destruct (hlll fp fuel delta false junk' (object_on J L)) as [[r' L4]| |];
    cbn [same_outcome bind same_verdict safe] in *; try contradiction; auto.
  destruct SO2 as (-> & EB & EU & EN & _). split; [reflexivity|]. cbn [lc addcnt nblov] in EN.
  change (getbase (mkL (lcfg L4) (li L4) (lf L4) (addcnt (nbswaps (lc L)) (vdepth (lc L)) (lc L4)))) with (getbase L4) in EB.
  change (getU (mkL (lcfg L4) (li L4) (lf L4) (addcnt (nbswaps (lc L)) (vdepth (lc L)) (lc L4)))) with (getU L4) in EU.
  pose proof (hlll_inv fp fuel delta false junk L2 r' L3 EX HL) as (EC & _); [cbn [L2 lcfg li]; apply Hb|].
  cbn [L2 lcfg] in EC. rewrite <- EB, <- EU, <- EN. unfold getbase, getU. cbn [lcfg li]. rewrite EC.
  split; [reflexivity|]. split; [reflexivity|]. rewrite <- Ed.
  destruct (Z.eqb_spec (nblov (lc L3)) (Z.of_nat (cd c) - 1)); [left|right]; split; auto.
Qed.
End S.
