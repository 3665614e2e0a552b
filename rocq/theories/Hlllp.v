(** * hlllp(delta, dthreshold, compt) and newseysenreduce, hlll.cc 2814-3320

    The experimental public variant of hlll.  [c501] is the constant 0.501 of line 3082
    as a number of the arithmetic.  [compt] only decides what is printed and is left out. *)
From Coq Require Import ZArith Lia List Bool Arith Relations.
From Verif Require Import Base Spec Mat FP Hlll IntSteps HlllInt.
Import ListNotations.

Section Model.
Context {F : Type} (fp : fpops F).
Variable c : cfg.
Notation n := (cn c).
Notation d := (cd c).
Notation fz := (fzero fp).

(** the coefficients of a block, 3072-3097: vectx[i], bounded[i] and the rest of tmpcolR *)
Definition ns_coefs_step (c501 : F) (R : mat F) (restdim : nat) (i : nat) (st : list F * list F * list bool * bool)
  : res (list F * list F * list bool * bool) :=
  let '(vx, tmp, bd, sd) := st in
  let* rii := gR fp c R i i in
  let xi := fdiv fp (nth i tmp fz) rii in
  let big := fcmp1 fp (fabs fp xi) c501 in
  guard ((i <? n) && (i <? d))
  (Ok (lupd vx i xi,
       fold_left (fun t k => lupd t k (fsubmul fp (nth k t fz) (mget fz R k i) xi)) (seq restdim (i - restdim)) tmp,
       lupd bd i (negb big), sd || big)).

(** update of R, 3123-3172 *)
Definition ns_R_step (kappa restdim : nat) (vx : list F) (bd : list bool) (i : nat) (R : mat F) : res (mat F) :=
  let x := frnd fp (nth i vx fz) in
  if nth i bd true then Ok R
  else let '(lx, expo) := fgse fp x in
    guard (restdim <=? n) (Ok (colop fz (rop fp lx expo x) 0 restdim R kappa i)).

(** update of B and U, 3183-3265; nmax = structure[i] + 1 *)
Definition ns_B_step (kappa : nat) (vx : list F) (bd : list bool) (i : nat) (s : ist) : res ist :=
  let x := frnd fp (nth i vx fz) in
  if nth i bd true then Ok s
  else let '(lx, expo) := fgse fp x in
    let nmax := nth i (iS s) 0 in
    let xz := fset_f fp x in
    guard (nmax <=? n)
     (let B' := colop 0%Z (bop c lx expo xz) 0 nmax (iB s) kappa i in
      let U' := if ctransf c then colop 0%Z (bop c lx expo xz) 0 (min d nmax) (iU s) kappa i else iU s in
      Ok (mkI B' U' (iS s))).

(** one value of ld, 3044-3284 *)
Definition ns_block (c501 : F) (kappa indexdec bdim : nat) (st : ist * fst_ F * list F * list F * list bool * bool)
  : res (ist * fst_ F * list F * list F * list bool * bool) :=
  let '(s, f, vx, tmp, bd, sd) := st in
  let restdim := kappa - indexdec - bdim in
  let rows := block_rows kappa indexdec bdim in
  let* tmp1 := mfold (fun i t => let* r := gR fp c (fR f) i kappa in Ok (lupd t i r)) rows tmp in
  let* (vx1, tmp2, bd1, sd1) := mfold (ns_coefs_step c501 (fR f) restdim) rows (vx, tmp1, bd, sd) in
  let* R1 := mfold (ns_R_step kappa restdim vx1 bd1) rows (fR f) in
  let* s1 := mfold (ns_B_step kappa vx1 bd1) rows s in
  Ok (s1, set_R R1 f, vx1, tmp2, bd1, sd1).

(** while (nonstop), 3036-3306: until no coefficient exceeds 0.501 *)
Fixpoint ns_loop (fuel : nat) (c501 : F) (s : ist) (f : fst_ F) (vx tmp : list F) (bd : list bool) (kappa : nat)
  : res (ist * fst_ F) :=
  match fuel with
  | O => NoFuel
  | S fuel' =>
      let* (s1, f1, vx1, tmp1, bd1, somedone) :=
        mfold (fun b st => ns_block c501 kappa (fst b) (snd b) st) (seysen_blocks (kappa + 1) 1 0 kappa) (s, f, vx, tmp, bd, false) in
      if somedone then
        let* f3 := householder_r fp c s1 (set_kept (lupd (fkept f1) kappa false) f1) kappa in
        ns_loop fuel' c501 s1 f3 vx1 tmp1 bd1 kappa
      else Ok (s1, f1)
  end.

(** newseysenreduce, 3008-3310; it returns somedone, which is then 0 *)
Definition newseysenreduce (fuel : nat) (c501 : F) (s : ist) (f : fst_ F) (kappa : nat) : res (ist * fst_ F * bool) :=
  let* f1 := householder_r fp c s f kappa in
  let* (s2, f2) := ns_loop fuel c501 s f1 (repeat fz kappa) (repeat fz kappa) (repeat false kappa) kappa in
  Ok (s2, f2, false).

(** 2879-2885 *)
Definition reducep (fuel : nat) (c501 : F) (dthr : Z) (s : ist) (f : fst_ F) (kappa : nat) : res (ist * fst_ F * bool) :=
  if (cseysen c <? 1)%Z then hsizereduce fp c fuel s f kappa 0
  else if (dthr <? Z.of_nat kappa)%Z then newseysenreduce fuel c501 s f kappa
  else seysenreduce fp c fuel s f kappa.

(** the main loop of hlllp, 2856-2972 *)
Fixpoint hlllp_loop (fuel : nat) (c501 delta : F) (dthr : Z) (s : ist) (f : fst_ F)
         (kappa : nat) (prevkappa : Z) (prevR : list F) (q : cnt) : res (hres (F := F)) :=
  if negb ((kappa <? d) && (nblov q <? cnblov_max c)%Z) then Ok (0%Z, s, f, q)
  else
  match fuel with
  | O => NoFuel
  | S fuel' =>
      let* f1 := hlll_enter fp c s f kappa in
      let* (s2, f2, failed) := reducep fuel c501 dthr s f1 kappa in
      if failed then Ok ((-1)%Z, s2, f2, q)
      else
        let* (lovtest, newt) := lovasz fp c delta s2 f2 kappa in
        let q1 := inc_lov q in
        if fle fp lovtest newt then
          let* f3 := householder_v fp c f2 kappa in
          let* rkk := gR fp c (fR f3) kappa kappa in
          if ((prevkappa =? Z.of_nat kappa + 1)%Z && flt fp (nth kappa prevR fz) (fabs fp rkk))
          then Ok ((-1)%Z, s2, f3, q1)
          else
            let desc1 := lupd (fdesc f3) kappa 0 in
            let f4 := set_desc (if kappa =? 1 then lupd desc1 0 0 else desc1) f3 in
            hlllp_loop fuel' c501 delta dthr s2 f4 (kappa + 1) (Z.of_nat kappa) (lupd prevR kappa (fabs fp rkk)) q1
        else
          hlllp_loop fuel' c501 delta dthr (swap_i c s2 kappa) (swap_f fp f2 kappa)
                     (max (kappa - 1) 1) (Z.of_nat kappa) prevR (inc_swap q1)
  end.

End Model.

(** hlllp(delta, dthreshold, compt) *)
Definition hlllp {F} (fp : fpops F) (fuel : nat) (c501 delta : F) (dthr : Z) (junk : F) (L : lattice F) : res (Z * lattice F) :=
  let c := lcfg L in
  let* (r, s, f, q') := hlllp_loop fp c fuel c501 delta dthr (li L) (hlll_reset c (lf L)) 1 (-1)%Z (repeat junk (cd c)) (lc L) in
  Ok (r, mkL c s f q').

(** ** what it does to the integer matrices *)
Section Int.
Context {F : Type} (fp : fpops F).
Hypothesis EX : expo_nonneg fp.
Variable c : cfg.
Notation n := (cn c).
Notation d := (cd c).

Lemma ns_B_step_int kappa vx bd i s s' : i < kappa -> kappa < d ->
  ns_B_step fp c kappa vx bd i s = Ok s' -> isteps c s s'.
Proof.
  intros Hi Hk H. unfold ns_B_step in H. destruct (nth i bd true).
  - injection H as <-. apply rt_refl.
  - destruct (fgse fp _) as [lx expo] eqn:E.
    assert (He : (0 <= expo)%Z) by (pose proof (EX (frnd fp (nth i vx (fzero fp)))) as P; rewrite E in P; exact P).
    binv H. injection H as <-. rewrite !colop_bop by assumption. apply rt_step. now apply is_red.
Qed.

Lemma ns_block_int c501 kappa dec bdim s f vx tmp bd b s' f' vx' tmp' bd' b' : dec + bdim <= kappa -> kappa < d ->
  ns_block fp c c501 kappa dec bdim (s, f, vx, tmp, bd, b) = Ok (s', f', vx', tmp', bd', b') -> isteps c s s'.
Proof.
  intros Hd Hk H. unfold ns_block in H. binv H. binv H. destruct a0 as [[[vx1 tmp2] bd1] sd1]. binv H. binv H. injection H as <- <- <- <- <- <-.
  eapply (mfold_inv (fun t => isteps c s t)); [|apply rt_refl|exact Ha2].
  intros i t1 t2 Hin Ht Hs. eapply rt_trans; [exact Ht|]. eapply ns_B_step_int; [| |exact Hs]; [|lia]. eapply block_rows_lt; eauto.
Qed.

Lemma ns_loop_int fuel c501 s f vx tmp bd kappa s' f' :
  kappa < d -> ns_loop fp c fuel c501 s f vx tmp bd kappa = Ok (s', f') -> isteps c s s'.
Proof.
  revert s f vx tmp bd. induction fuel as [|fuel IH]; intros s f vx tmp bd Hk H; cbn [ns_loop] in H; [discriminate|].
  binv H. destruct a as [[[[[s1 f1] vx1] tmp1] bd1] sd].
  assert (P : isteps c s s1).
  { pose proof (mfold_inv (fun t => isteps c s (fst (fst (fst (fst (fst t))))))
     (fun b st => ns_block fp c c501 kappa (fst b) (snd b) st)
     (seysen_blocks (kappa + 1) 1 0 kappa) (s, f, vx, tmp, bd, false) (s1, f1, vx1, tmp1, bd1, sd)) as M.
    cbn [fst snd] in M. apply M; auto; [|apply rt_refl].
    intros [dec bdm] [[[[[t1 g1] w1] u1] v1] b1] [[[[[t2 g2] w2] u2] v2] b2] Hin Ht Hs. cbn [fst snd] in *.
    eapply rt_trans; [exact Ht|]. eapply ns_block_int; [| |exact Hs]; [|lia].
    change (fst (dec, bdm) + snd (dec, bdm) <= kappa).
    apply (seysen_blocks_le (kappa + 1) 0). cbn [Nat.pow]. rewrite Nat.mod_1_r. exact Hin. }
  destruct sd.
  - binv H. apply IH in H; auto. eapply isteps_trans; eauto.
  - injection H as <- <-. assumption.
Qed.

Lemma reducep_int fuel c501 dthr s f kappa s' f' b :
  wfm n d (iB s) -> 1 <= kappa -> reducep fp c fuel c501 dthr s f kappa = Ok (s', f', b) ->
  istepsP c s s' /\ ((cS c = 1 \/ (1 <= cseysen c)%Z) -> isteps c s s').
Proof.
  intros Hb Hk H. unfold reducep in H. destruct (cseysen c <? 1)%Z eqn:E.
  - apply hsizereduce_int in H as [P Q]; auto. split; [assumption|]. intros [G|G]; [auto|lia].
  - destruct (dthr <? _)%Z.
    + unfold newseysenreduce in H. binv H. binv H. destruct a0 as [s2 f2]. injection H as <- <- <-.
      apply ns_loop_int in Ha0; [|eapply householder_r_dim; eauto]. split; [now apply isteps_P|auto].
    + apply seysenreduce_int in H; auto. split; [now apply isteps_P|auto].
Qed.

Lemma hlllp_loop_int fuel c501 delta dthr s f kappa pk pR q r s' f' q' :
  wfm n d (iB s) -> 1 <= kappa ->
  hlllp_loop fp c fuel c501 delta dthr s f kappa pk pR q = Ok (r, s', f', q') ->
  istepsP c s s' /\ (sequential c -> isteps c s s').
Proof.
  revert s f kappa pk pR q. induction fuel as [|fuel IH]; intros s f kappa pk pR q Hb Hk H.
  - cbn [hlllp_loop] in H. destruct (negb _); [|discriminate]. injection H as <- <- <- <-.
    split; [|intros _]; apply rt_refl.
  - cbn [hlllp_loop] in H. destruct (negb _) eqn:G.
    { injection H as <- <- <- <-. split; [|intros _]; apply rt_refl. }
    apply negb_false_iff, andb_true_iff in G as [G _]. apply Nat.ltb_lt in G.
    binv H. binv H. destruct a0 as [[s2 f2] failed].
    apply reducep_int in Ha0 as [P Q]; auto.
    destruct failed.
    { injection H as <- <- <- <-. auto. }
    binv H. destruct a0 as [lt nt].
    assert (Hb2 : wfm n d (iB s2)) by (eapply isteps_wf; eauto).
    destruct (fle fp lt nt).
    + binv H. binv H.
      match type of H with context [if ?b then _ else _] => destruct b end.
      * injection H as <- <- <- <-. auto.
      * apply IH in H as [P' Q']; auto; [|lia].
        split; [eapply istepsP_trans; eauto|]. intros E. eapply isteps_trans; eauto.
    + assert (St : istep c s2 (swap_i c s2 kappa)) by (apply is_swap; lia).
      assert (Hb3 : wfm n d (iB (swap_i c s2 kappa))) by (eapply istep_wf; eauto).
      apply IH in H as [P' Q']; auto; [|lia].
      split.
      * eapply rt_trans; [exact P|]. eapply rt_trans; [|exact P']. apply rt_step. now left.
      * intros E. eapply rt_trans; [apply Q, E|]. eapply rt_trans; [|apply Q', E]. now apply rt_step.
Qed.

(** below the threshold, or without the SEYSEN option, it is hlll *)
Lemma hlllp_loop_hlll fuel c501 delta dthr : ckmax c = d -> (cseysen c < 1)%Z \/ (Z.of_nat d - 1 <= dthr)%Z ->
  forall s f kappa pk pR q,
  hlllp_loop fp c fuel c501 delta dthr s f kappa pk pR q = hlll_loop fp c fuel delta false s f kappa pk pR q.
Proof.
  intros CK H. induction fuel as [|fuel IH]; intros s f kappa pk pR q; cbn [hlllp_loop hlll_loop]; rewrite CK; [reflexivity|].
  destruct (negb _) eqn:G; [reflexivity|]. apply negb_false_iff, andb_true_iff in G as [G _].
  assert (E : forall f1, reducep fp c (S fuel) c501 dthr s f1 kappa = reduce fp c (S fuel) s f1 kappa).
  { intros f1. unfold reducep, reduce. destruct (Z.ltb_spec (cseysen c) 1); [reflexivity|].
    apply Nat.ltb_lt in G. replace (dthr <? Z.of_nat kappa)%Z with false; [reflexivity|]. symmetry. apply Z.ltb_ge. lia. }
  destruct (hlll_enter fp c s f kappa) as [f1| |]; cbn [bind]; auto. rewrite E.
  destruct (reduce fp c (S fuel) s f1 kappa) as [[[s2 f2] failed]| |]; cbn [bind]; auto.
  destruct failed; [reflexivity|].
  destruct (lovasz fp c delta s2 f2 kappa) as [[lt nt]| |]; cbn [bind]; auto.
  unfold guard. rewrite G. destruct (fle fp lt nt).
  - destruct (householder_v fp c f2 kappa) as [f3| |]; cbn [bind]; auto.
    destruct (gR fp c (fR f3) kappa kappa) as [rkk| |]; cbn [bind]; auto.
    destruct (_ && _)%bool; [reflexivity|]. apply IH.
  - apply IH.
Qed.

End Int.
