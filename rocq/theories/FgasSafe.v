(** * No out-of-bounds access in the decompositions (decomp.cc, decompz.cc) *)
From Coq Require Import ZArith Lia List Bool Arith.
From Verif Require Import Base Spec Mat FP Hlll IntSteps HlllInt LinDep Structure MachInt ZFgas Fgas Safety.
Import ListNotations.
Local Open Scope nat_scope.

Lemma glist_length {A} (f : nat -> list A -> A) l : forall g, length (fold_left (fun g i => g ++ [f i g]) l g) = length g + length l.
Proof. induction l as [|a l IH]; intros g; cbn [fold_left length]; [lia|]. rewrite IH, app_length. cbn. lia. Qed.

Lemma safe_true {A} (P : A -> Prop) m : safe P m -> safe (fun _ => True) m.
Proof. apply safe_weaken. auto. Qed.

Section FG.
Context {F T : Type} (fp : fpops F) (rt : rtops F T).
Variables (d n : nat).
Hypothesis D0 : 0 < d.
Hypothesis DN : d <= n.
Notation fz := (fzero fp).

Definition gwf (z : fgas F T) : Prop := wfm d n (gR z) /\ wfm d d (gV z) /\ length (gN z) = n.

Ltac gs := cbn [set_gx set_gR set_gV set_gN set_gl inc_gn gx gR gV gN gldim gnblov] in *.

Lemma gwf_R z M : gwf z -> wfm d n M -> gwf (set_gR M z).
Proof. intros (A & B & C) H. unfold gwf. gs. auto. Qed.
Lemma gwf_V z M : gwf z -> wfm d d M -> gwf (set_gV M z).
Proof. intros (A & B & C) H. unfold gwf. gs. auto. Qed.
Lemma gwf_N z M : gwf z -> length M = n -> gwf (set_gN M z).
Proof. intros (A & B & C) H. unfold gwf. gs. auto. Qed.
Lemma gwf_x z x : gwf z -> gwf (set_gx x z).
Proof. intros H. exact H. Qed.

(** safe, with the object well formed and the dimension of the lattice part unchanged *)
Definition gkeep (l : nat) (z : fgas F T) : Prop := gwf z /\ gldim z = l.

Lemma rget_safe M i j : i < d -> j < n -> safe (fun _ => True) (rget fp d n M i j).
Proof. intros. unfold rget. apply safe_guard; [bool_lia|exact I]. Qed.

Lemma gh_step_safe l kappa k z : gkeep l z -> kappa < n -> k < d -> safe (gkeep l) (gh_step fp d n kappa k z).
Proof.
  intros [(A & B & C) L] Hk Hd. unfold gh_step. apply safe_guard; [bool_lia|]. cbv zeta.
  eapply safe_bind; [apply safe_scalarprod; rewrite ?skipn_length, ?(wfm_col d d _ _ B Hd), ?(wfm_col d n _ _ A Hk); lia|].
  intros a _. cbn [safe]. split; [|exact L]. apply gwf_R; [exact (conj A (conj B C))|].
  apply wfm_lupd; [exact A|]. rewrite splice_length; [now apply (wfm_col d n)|]. rewrite map_length, seq_length, (wfm_col d n _ _ A Hk). lia.
Qed.

Lemma ghouseholder_safe l kappa z : gkeep l z -> kappa < n -> safe (gkeep l) (ghouseholder fp rt d n kappa z).
Proof.
  intros [(A & B & C) L] Hk. unfold ghouseholder. apply safe_guard; [bool_lia|]. cbv zeta.
  match goal with |- context [set_gR ?M z] => set (R1 := M) end.
  assert (W1 : wfm d n R1).
  { apply wfm_lupd; [exact A|]. rewrite splice_length; [now apply (wfm_col d n)|]. rewrite map_length, seq_length, (wfm_col d n _ _ A Hk). lia. }
  eapply safe_bind; [gs; apply safe_scalarprod; rewrite (wfm_col d n _ _ W1 Hk); lia|]. intros q _. gs.
  set (z2 := set_gN (lupd (gN z) kappa q) (set_gR R1 z)).
  assert (K2 : gkeep l z2).
  { split; [|exact L]. unfold z2, gwf. gs. split; [exact W1|]. split; [exact B|]. now rewrite lupd_length. }
  rewrite L. destruct (Nat.ltb_spec kappa (d - l)) as [Lt|Ge].
  - eapply safe_bind.
    { eapply (safe_mfold (gkeep l)); [exact K2|]. intros k t Hin Ht. apply in_seq in Hin. apply gh_step_safe; [exact Ht|exact Hk|lia]. }
    intros z3 [(A3 & B3 & C3) L3]. eapply safe_bind; [apply rget_safe; lia|]. intros w0 _.
    eapply safe_bind; [apply safe_norm; rewrite skipn_length, (wfm_col d n _ _ A3 Hk); lia|]. intros nr _.
    match goal with |- context [if ?b then (_, _) else _] => destruct b end; cbn [safe]; gs; (split; [|exact L3]); unfold gwf; gs;
      (split; [apply wfm_lupd; [now apply wfm_mset|now rewrite map_length, seq_length]|]); (split; [|exact C3]);
      (apply wfm_lupd; [exact B3|now rewrite map_length, seq_length]).
  - eapply (safe_mfold (gkeep l)); [exact K2|]. intros k t Hin Ht. apply in_seq in Hin. apply gh_step_safe; [exact Ht|exact Hk|lia].
Qed.

(** with a residue Y, the indices of its rows *)
Variables (dec : nat) (transf : bool).
Hypothesis YB : dec = 0 \/ n = d + dec.

Lemma xcol_safe kappa i xz x : i < kappa -> kappa < n -> safe (fun _ => True) (xcol rt d n dec transf kappa i xz x).
Proof.
  intros Hi Hk. unfold xcol. apply safe_guard; [bool_lia|]. cbv zeta.
  eapply safe_bind with (P := fun _ => True); [|intros; exact I].
  destruct (Nat.leb_spec dec i) as [L1|L1]; [|exact I]. destruct (Nat.ltb_spec 0 dec) as [L2|L2]; [|exact I].
  cbn [andb]. unfold yrow. apply safe_guard; [bool_lia|exact I].
Qed.

Lemma gelims_safe l kappa ls z b : (forall i, In i ls -> i < kappa /\ i < d) -> kappa < n -> gkeep l z ->
  safe (fun st => gkeep l (fst st)) (mfold (gelim fp rt d n dec transf kappa) ls (z, b)).
Proof.
  intros Hl Hk K. apply safe_mfold; [exact K|]. intros i [z1 b1] Hin K1. cbn [fst] in K1. destruct (Hl i Hin) as [Hik Hid].
  unfold gelim. eapply safe_bind; [apply rget_safe; lia|]. intros rik _.
  eapply safe_bind; [apply rget_safe; lia|]. intros rii _. cbv zeta.
  destruct (fnz fp _); [|exact K1].
  eapply safe_bind; [apply xcol_safe; assumption|]. intros x' _. cbn [safe fst]. destruct K1 as [K1 L1]. split; [|exact L1].
  apply gwf_x, gwf_R; [exact K1|]. apply wfm_colop, K1.
Qed.

Lemma elim_list_both kappa ld i : In i (elim_list d kappa ld) -> i < kappa /\ i < d.
Proof.
  unfold elim_list. destruct (Nat.eqb_spec kappa 0); [intros []|]. destruct (Nat.leb_spec d ld); [intros []|]. cbn [orb].
  intros HI. apply in_down in HI. lia.
Qed.

Lemma ghs_loop_safe l fuel kappa : kappa < n -> forall z, gkeep l z -> safe (gkeep l) (ghs_loop fp rt d n dec transf fuel kappa z).
Proof.
  intros Hk. induction fuel as [|fuel IH]; intros z K; cbn [ghs_loop]; [exact I|].
  eapply safe_bind; [apply (gelims_safe l); [apply elim_list_both|exact Hk|exact K]|]. intros [z1 sd] K1. cbn [fst] in K1.
  destruct sd; [|exact K1]. eapply safe_bind; [apply ghouseholder_safe; [exact K1|exact Hk]|]. intros z2 K2.
  destruct (flt fp _ _); [now apply IH|exact K2].
Qed.

Lemma ghsizereduce_safe l fuel kappa z : kappa < n -> gkeep l z -> safe (gkeep l) (ghsizereduce fp rt d n dec transf fuel kappa z).
Proof.
  intros Hk K. unfold ghsizereduce. eapply safe_bind; [apply ghouseholder_safe; [exact K|exact Hk]|]. intros z1 K1. now apply ghs_loop_safe.
Qed.

Lemma greds_safe l fuel ls z : (forall j, In j ls -> j < n) -> gkeep l z ->
  safe (gkeep l) (mfold (ghsizereduce fp rt d n dec transf fuel) ls z).
Proof. intros Hl K. apply safe_mfold; [exact K|]. intros j t Hj Ht. apply ghsizereduce_safe; auto. Qed.

Lemma yget_safe Y i j : i < d -> j < dec -> safe (fun _ => True) (yget rt d dec Y i j).
Proof. intros. unfold yget. apply safe_guard; [bool_lia|exact I]. Qed.
Lemma ymax_safe Y rows m0 : (forall i, In i rows -> i < d) -> safe (fun _ => True) (ymax rt d dec Y rows m0).
Proof.
  intros Hr. unfold ymax. apply safe_mfold; [exact I|]. intros i m Hi _. apply safe_mfold; [exact I|]. intros j m' Hj _.
  apply in_seq in Hj. eapply safe_bind; [apply yget_safe; [now apply Hr|lia]|]. intros; exact I.
Qed.

(** the main loop: no relation between the number of columns and rows is needed in the left part; in the right part a
    column n - ldim > d - ldim must exist *)
Hypothesis DEC : dec < d.
Hypothesis DNs : d < n.

Lemma gmindiag_safe M hi : hi <= d -> safe (fun _ => True) (gmindiag fp d n dec M hi).
Proof.
  intros H. unfold gmindiag. eapply safe_bind; [apply rget_safe; lia|]. intros r0 _. apply safe_mfold; [exact I|].
  intros i m Hi _. apply in_seq in Hi. eapply safe_bind; [apply rget_safe; lia|]. intros; exact I.
Qed.
Lemma gmaxdiag_safe M hi : hi <= d -> safe (fun _ => True) (gmaxdiag fp d n dec M hi).
Proof.
  intros H. unfold gmaxdiag. eapply safe_bind; [apply rget_safe; lia|]. intros r0 _. apply safe_mfold; [exact I|].
  intros i m Hi _. apply in_seq in Hi. eapply safe_bind; [apply rget_safe; lia|]. intros; exact I.
Qed.

Lemma gleft_safe M g hi : length g = d -> hi <= d -> safe (fun m => dec <= m < max hi (dec + 1)) (gleft fp d n dec M g hi).
Proof.
  intros Hg H. unfold gleft. apply safe_guard; [bool_lia|]. eapply safe_bind; [apply rget_safe; lia|]. intros r0 _.
  eapply safe_bind with (P := fun st : nat * F => dec <= fst st < max hi (dec + 1)).
  - apply safe_mfold; [cbn [fst]; lia|]. intros j [m t1] Hj Hm. cbn [fst] in Hm. apply in_seq in Hj.
    apply safe_guard; [bool_lia|]. eapply safe_bind; [apply rget_safe; lia|]. intros r _. cbv zeta.
    destruct (flt fp _ _); cbn [safe fst]; lia.
  - intros [m t] Hm. exact Hm.
Qed.

Lemma gright_safe M row lo hi : row < d -> lo < n -> hi <= n -> safe (fun m => lo <= m < max hi (lo + 1)) (gright fp d n M row lo hi).
Proof.
  intros H1 H2 H3. unfold gright. eapply safe_bind; [apply rget_safe; lia|]. intros r0 _.
  eapply safe_bind with (P := fun st : nat * F => lo <= fst st < max hi (lo + 1)).
  - apply safe_mfold; [cbn [fst]; lia|]. intros j [m t1] Hj Hm. cbn [fst] in Hm. apply in_seq in Hj.
    eapply safe_bind; [apply rget_safe; lia|]. intros r _. cbv zeta. destruct (flt fp _ _); cbn [safe fst]; lia.
  - intros [m t] Hm. exact Hm.
Qed.

Lemma xswap_safe p q x : dec <= p -> dec <= q -> p < n -> q < n -> safe (fun _ => True) (xswap rt d n dec transf p q x).
Proof.
  intros. unfold xswap. apply safe_guard; [bool_lia|]. eapply safe_bind with (P := fun _ => True); [|intros; exact I].
  destruct (Nat.ltb_spec 0 dec); [|exact I]. apply safe_guard; [bool_lia|]. unfold yswap. apply safe_guard; [bool_lia|exact I].
Qed.

Lemma ubits_safe U : safe (fun _ => True) (ubits n U).
Proof. unfold ubits. apply safe_guard; [bool_lia|exact I]. Qed.

Variables (gap : F -> bool) (epsilon : T) (ubound : Z).
Lemma gloop_safe g target targetsize : length g = d -> (target <= Z.of_nat (d - dec))%Z ->
  forall fuel z maxh dg mY, gwf z -> gldim z < d -> dec <= maxh < n ->
  safe (fun rz => gwf (snd rz) /\ (fst rz <> 0%Z -> gldim (snd rz) < d) /\ gldim (snd rz) <= d)
       (gloop fp rt d n dec transf gap epsilon ubound fuel g target targetsize z maxh dg mY).
Proof.
  intros Hg Ht. induction fuel as [|fuel IH]; intros z0 maxh dg mY W L M; cbn [gloop]; [exact I|]. cbv zeta.
  set (z := inc_gn z0). assert (Wz : gwf z) by exact W. assert (Lz : gldim z < d) by exact L. clearbody z. clear W L z0.
  apply safe_guard; [bool_lia|].
  eapply safe_bind with (P := fun _ => True).
  { destruct (Nat.ltb_spec 0 dec).
    - eapply safe_bind; [apply yget_safe; lia|]. intros y0 _. eapply safe_bind; [apply ymax_safe; intros i [<-|[]]; lia|]. intros; exact I.
    - eapply safe_bind; [apply rget_safe; lia|]. intros; exact I. }
  intros [hit maxY] _.
  eapply safe_bind with (P := fun z1 => gwf z1 /\ gldim z1 <= d).
  { destruct hit; [|split; [exact Wz|lia]].
    eapply safe_bind with (P := gkeep (gldim z)).
    - destruct (Z.ltb_spec (Z.of_nat maxh) (Z.of_nat n - Z.of_nat (gldim z) - 1)); [|split; [exact Wz|reflexivity]].
      eapply safe_bind; [apply xswap_safe; lia|]. intros x' _. split; [exact Wz|reflexivity].
    - intros z' [W' L']. cbn [safe]. split; [exact W'|]. gs. lia. }
  intros z1 [W1 L1]. destruct (Z.leb_spec target (Z.of_nat (gldim z1))) as [E|E].
  { cbn [safe fst snd]. split; [exact W1|]. split; [congruence|exact L1]. }
  assert (Lt : gldim z1 < d - dec) by lia.
  assert (K1 : gkeep (gldim z1) z1) by (split; [exact W1|reflexivity]).
  assert (END : forall r : Z, gwf z1 /\ (r <> 0%Z -> gldim z1 < d) /\ gldim z1 <= d) by (intros; split; [exact W1|lia]).
  eapply safe_bind with (P := fun _ => True).
  { destruct (0 <? dec); [exact I|]. apply gmindiag_safe; lia. }
  intros diag' _. eapply safe_bind; [apply gmaxdiag_safe; lia|]. intros mx _.
  destruct (targetsize <? _)%Z; [exact (END _)|].
  eapply safe_bind with (P := fun _ => True).
  { destruct (0 <? dec); [|exact I]. eapply safe_bind; [apply ymax_safe; intros i Hi; apply in_seq in Hi; lia|]. intros; exact I. }
  intros ex _. destruct ex; [exact (END _)|].
  eapply safe_bind with (P := fun _ => True).
  { destruct (keepU dec transf); [|exact I]. eapply safe_bind; [apply ubits_safe|]. intros; exact I. }
  intros large _. destruct large; [exact (END _)|].
  eapply safe_bind; [apply gleft_safe; [exact Hg|lia]|]. intros m Hm. cbn beta in Hm.
  destruct (Z.ltb_spec (Z.of_nat m) (Z.of_nat d - Z.of_nat (gldim z1) - 1)) as [Left|Right].
  - eapply safe_bind; [apply xswap_safe; lia|]. intros x2 _.
    eapply safe_bind; [apply (greds_safe (gldim z1)); [intros j Hj; apply in_seq in Hj; lia|exact K1]|].
    intros z3 [W3 L3]. apply IH; [exact W3|lia|lia].
  - eapply safe_bind; [apply (greds_safe (gldim z1)); [intros j Hj; apply in_seq in Hj; lia|exact K1]|].
    intros z2 [W2 L2]. apply safe_guard; [bool_lia|].
    eapply safe_bind; [apply gright_safe; lia|]. intros m2 Hm2. cbn beta in Hm2.
    eapply safe_bind; [apply xswap_safe; lia|]. intros x3 _.
    eapply safe_bind; [apply (ghsizereduce_safe (gldim z1)); [lia|split; [exact W2|exact L2]]|].
    intros z4 [W4 L4]. apply IH; [exact W4|lia|lia].
Qed.

Lemma gdecomp_safe gamma target targetsize fuel z : gwf z -> gldim z < d -> (target <= Z.of_nat (d - dec))%Z ->
  safe (fun rz => gwf (snd rz) /\ (fst rz <> 0%Z -> gldim (snd rz) < d) /\ gldim (snd rz) <= d)
       (gdecomp fp rt d n dec transf gap epsilon ubound fuel gamma target targetsize z).
Proof.
  intros W L Ht. unfold gdecomp. apply safe_guard; [bool_lia|]. cbv zeta.
  eapply safe_bind; [apply (greds_safe (gldim z)); [intros j Hj; apply in_seq in Hj; lia|split; [exact W|reflexivity]]|].
  intros z1 [W1 L1].
  assert (G : length (fold_left (fun g i => g ++ [fmul fp (nth (i - 1) g fz) gamma]) (seq 1 (d - 1)) [gamma]) = d).
  { rewrite (glist_length (fun i g => fmul fp (nth (i - 1) g fz) gamma)), seq_length. cbn. lia. }
  destruct (Nat.ltb_spec 0 dec).
  - eapply safe_bind; [apply yget_safe; lia|]. intros y0 _.
    eapply safe_bind; [apply ymax_safe; intros i Hi; apply in_seq in Hi; lia|]. intros mY _.
    eapply safe_bind; [apply ymax_safe; intros i Hi; apply in_seq in Hi; lia|]. intros r1 _.
    destruct (tgt rt _ _); [cbn [safe fst snd]; split; [exact W1|lia]|]. apply gloop_safe; try assumption; lia.
  - eapply safe_bind; [apply gmindiag_safe; lia|]. intros diag _. apply gloop_safe; try assumption; lia.
Qed.

Lemma new_fgas_wf J A res : gwf (new_fgas rt d n dec transf J A res).
Proof. unfold gwf, new_fgas. gs. split; [apply mtab_wfm|]. split; [apply mtab_wfm|]. now rewrite map_length, seq_length. Qed.
Lemma gset_wf A res z : gwf z -> gwf (gset_ rt d n dec transf A res z).
Proof. intros H. exact H. Qed.
End FG.
