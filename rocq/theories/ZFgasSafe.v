(** * No out-of-bounds access in ZFgas::decomp (decompz.cc) *)
From Coq Require Import ZArith Lia List Bool Arith.
From Verif Require Import Base Spec Mat FP Hlll IntSteps HlllInt LinDep Structure MachInt ZFgas Safety FgasSafe.
Import ListNotations.
Local Open Scope nat_scope.

Section ZS.
Context {F : Type} (fp : fpops F).
Variables (d n : nat).
Hypothesis DN : d <= n.
Notation fz := (fzero fp).

Definition zwf (z : zfg F) : Prop := wfm d n (zR z) /\ wfm d d (zV z) /\ length (zN z) = n.
Ltac zs := cbn [set_zR set_zV set_zN set_int set_ldim inc_nblov zF zU zW zR zV zN zldim znblov] in *.

Lemma zwf_R z M : zwf z -> wfm d n M -> zwf (set_zR M z).
Proof. intros (A & B & C) H. unfold zwf. zs. auto. Qed.
Definition zkeep (l : nat) (z : zfg F) : Prop := zwf z /\ zldim z = l.

Lemma zget_safe M i j : i < d -> j < n -> safe (fun _ => True) (zget fp d n M i j).
Proof. intros. unfold zget. apply safe_guard; [bool_lia|exact I]. Qed.

Lemma zh_step_safe l kappa k z : zkeep l z -> kappa < n -> k < d -> safe (zkeep l) (zh_step fp d n kappa k z).
Proof.
  intros [(A & B & C) L] Hk Hd. unfold zh_step. apply safe_guard; [bool_lia|]. cbv zeta.
  eapply safe_bind; [apply safe_scalarprod; rewrite ?skipn_length, ?(wfm_col d d _ _ B Hd), ?(wfm_col d n _ _ A Hk); lia|].
  intros a _. cbn [safe]. split; [|exact L]. apply zwf_R; [exact (conj A (conj B C))|].
  apply wfm_lupd; [exact A|]. rewrite splice_length; [now apply (wfm_col d n)|]. rewrite map_length, seq_length, (wfm_col d n _ _ A Hk). lia.
Qed.

Hypothesis D0 : 0 < d.

Lemma zhouseholder_safe l kappa z : zkeep l z -> kappa < n -> safe (zkeep l) (zhouseholder fp d n kappa z).
Proof.
  intros [(A & B & C) L] Hk. unfold zhouseholder. apply safe_guard; [bool_lia|]. cbv zeta.
  match goal with |- context [set_zR ?M z] => set (R1 := M) end.
  assert (W1 : wfm d n R1).
  { apply wfm_lupd; [exact A|]. rewrite splice_length; [now apply (wfm_col d n)|]. rewrite map_length, seq_length, (wfm_col d n _ _ A Hk). lia. }
  eapply safe_bind; [zs; apply safe_scalarprod; rewrite (wfm_col d n _ _ W1 Hk); lia|]. intros q _. zs.
  set (z2 := set_zN (lupd (zN z) kappa q) (set_zR R1 z)).
  assert (K2 : zkeep l z2).
  { split; [|exact L]. unfold z2, zwf. zs. split; [exact W1|]. split; [exact B|]. now rewrite lupd_length. }
  rewrite L. destruct (Nat.ltb_spec kappa (d - l)) as [Lt|Ge].
  - eapply safe_bind.
    { eapply (safe_mfold (zkeep l)); [exact K2|]. intros k t Hin Ht. apply in_seq in Hin. apply zh_step_safe; [exact Ht|exact Hk|lia]. }
    intros z3 [(A3 & B3 & C3) L3]. eapply safe_bind; [apply zget_safe; lia|]. intros w0 _.
    eapply safe_bind; [apply safe_norm; rewrite skipn_length, (wfm_col d n _ _ A3 Hk); lia|]. intros nr _.
    match goal with |- context [if ?b then (_, _) else _] => destruct b end; cbn [safe]; zs; (split; [|exact L3]); unfold zwf; zs;
      (split; [apply wfm_lupd; [now apply wfm_mset|now rewrite map_length, seq_length]|]); (split; [|exact C3]);
      (apply wfm_lupd; [exact B3|now rewrite map_length, seq_length]).
  - eapply (safe_mfold (zkeep l)); [exact K2|]. intros k t Hin Ht. apply in_seq in Hin. apply zh_step_safe; [exact Ht|exact Hk|lia].
Qed.

Variables (dec : nat) (transf : bool).
Lemma zelims_safe l kappa ls z b : (forall i, In i ls -> i < kappa /\ i < d) -> kappa < n -> zkeep l z ->
  safe (fun st => zkeep l (fst st)) (mfold (zelim fp d n transf kappa) ls (z, b)).
Proof.
  intros Hl Hk K. apply safe_mfold; [exact K|]. intros i [z1 b1] Hin K1. cbn [fst] in K1. destruct (Hl i Hin) as [Hik Hid].
  unfold zelim. eapply safe_bind; [apply zget_safe; lia|]. intros rik _.
  eapply safe_bind; [apply zget_safe; lia|]. intros rii _. cbv zeta.
  destruct (fnz fp _); [|exact K1]. cbn [safe fst]. destruct K1 as [K1 L1]. split; [|exact L1].
  refine (zwf_R z1 _ K1 _). apply wfm_colop, K1.
Qed.

Lemma zhs_loop_safe l fuel kappa : kappa < n -> forall z, zkeep l z -> safe (zkeep l) (zhs_loop fp d n transf fuel kappa z).
Proof.
  intros Hk. induction fuel as [|fuel IH]; intros z K; cbn [zhs_loop]; [exact I|].
  eapply safe_bind; [apply (zelims_safe l); [intros i Hi; eapply elim_list_both; eauto|exact Hk|exact K]|]. intros [z1 sd] K1. cbn [fst] in K1.
  destruct sd; [|exact K1]. eapply safe_bind; [apply zhouseholder_safe; [exact K1|exact Hk]|]. intros z2 K2.
  destruct (flt fp _ _); [now apply IH|exact K2].
Qed.

Lemma zhsizereduce_safe l fuel kappa z : kappa < n -> zkeep l z -> safe (zkeep l) (zhsizereduce fp d n transf fuel kappa z).
Proof.
  intros Hk K. unfold zhsizereduce. eapply safe_bind; [apply zhouseholder_safe; [exact K|exact Hk]|]. intros z1 K1. now apply zhs_loop_safe.
Qed.

Lemma zreds_safe l fuel ls z : (forall j, In j ls -> j < n) -> zkeep l z ->
  safe (zkeep l) (mfold (zhsizereduce fp d n transf fuel) ls z).
Proof. intros Hl K. apply safe_mfold; [exact K|]. intros j t Hj Ht. apply zhsizereduce_safe; auto. Qed.

Hypothesis DEC : dec < d.
Hypothesis DNs : d < n.

Lemma zmindiag_safe M hi : hi <= d -> safe (fun _ => True) (zmindiag fp d n dec M hi).
Proof.
  intros H. unfold zmindiag. eapply safe_bind; [apply zget_safe; lia|]. intros r0 _. apply safe_mfold; [exact I|].
  intros i m Hi _. apply in_seq in Hi. eapply safe_bind; [apply zget_safe; lia|]. intros; exact I.
Qed.

Lemma zleft_safe M g hi : length g = d -> hi <= d -> safe (fun m => dec <= m < max hi (dec + 1)) (zleft fp d n dec M g hi).
Proof.
  intros Hg H. unfold zleft. apply safe_guard; [bool_lia|]. eapply safe_bind; [apply zget_safe; lia|]. intros r0 _.
  eapply safe_bind with (P := fun st : nat * F => dec <= fst st < max hi (dec + 1)).
  - apply safe_mfold; [cbn [fst]; lia|]. intros j [m t1] Hj Hm. cbn [fst] in Hm. apply in_seq in Hj.
    apply safe_guard; [bool_lia|]. eapply safe_bind; [apply zget_safe; lia|]. intros r _. cbv zeta.
    destruct (flt fp _ _); cbn [safe fst]; lia.
  - intros [m t] Hm. exact Hm.
Qed.

Lemma zright_safe M row lo hi : row < d -> lo < n -> hi <= n -> safe (fun m => lo <= m < max hi (lo + 1)) (zright fp d n M row lo hi).
Proof.
  intros H1 H2 H3. unfold zright. eapply safe_bind; [apply zget_safe; lia|]. intros r0 _.
  eapply safe_bind with (P := fun st : nat * F => lo <= fst st < max hi (lo + 1)).
  - apply safe_mfold; [cbn [fst]; lia|]. intros j [m t1] Hj Hm. cbn [fst] in Hm. apply in_seq in Hj.
    eapply safe_bind; [apply zget_safe; lia|]. intros r _. cbv zeta. destruct (flt fp _ _); cbn [safe fst]; lia.
  - intros [m t] Hm. exact Hm.
Qed.

Lemma zswap_safe l p q z : p < n -> q < n -> zkeep l z -> safe (zkeep l) (zswap n transf p q z).
Proof. intros. unfold zswap. apply safe_guard; [bool_lia|assumption]. Qed.

Variable gap : F.
Lemma zloop_safe g target : length g = d -> (target <= Z.of_nat d)%Z ->
  forall fuel z maxh dg pk pR, zwf z -> zldim z < d -> maxh < n -> length pR = d ->
  safe (fun rz => zwf (snd rz) /\ zldim (snd rz) <= d)
       (zloop fp d n dec transf gap fuel g target z maxh dg pk pR).
Proof.
  intros Hg Ht. induction fuel as [|fuel IH]; intros z0 maxh dg pk pR W L M PR; cbn [zloop]; [exact I|]. cbv zeta.
  set (z := inc_nblov z0). assert (Wz : zwf z) by exact W. assert (Lz : zldim z < d) by exact L. clearbody z. clear W L z0.
  apply safe_guard; [bool_lia|].
  eapply safe_bind; [apply zget_safe; lia|]. intros rl _.
  eapply safe_bind with (P := fun z1 => zwf z1 /\ zldim z1 <= d).
  { destruct (flt fp _ _); [|split; [exact Wz|lia]].
    eapply safe_bind with (P := zkeep (zldim z)).
    - destruct (Z.ltb_spec (Z.of_nat maxh) (Z.of_nat n - Z.of_nat (zldim z) - 1)); [|split; [exact Wz|reflexivity]].
      apply zswap_safe; [lia|lia|]. split; [exact Wz|reflexivity].
    - intros z' [W' L']. cbn [safe]. split; [exact W'|]. zs. lia. }
  intros z1 [W1 L1]. destruct (Z.leb_spec target (Z.of_nat (zldim z1))) as [E|E].
  { cbn [safe fst snd]. auto. }
  assert (Lt : zldim z1 < d) by lia.
  assert (K1 : zkeep (zldim z1) z1) by (split; [exact W1|reflexivity]).
  eapply safe_bind; [apply zmindiag_safe; lia|]. intros diag' _.
  eapply safe_bind; [apply zleft_safe; [exact Hg|lia]|]. intros m Hm. cbn beta in Hm.
  eapply safe_bind with (P := fun x : bool * option nat * list F => length (snd x) = d).
  { destruct (Nat.ltb_spec m (d - zldim z1)); [|exact PR].
    eapply safe_bind; [apply zget_safe; lia|]. intros r _. apply safe_guard; [rewrite PR; apply Nat.ltb_lt; lia|].
    cbn [safe snd]. now rewrite lupd_length. }
  intros [[bad pk'] pR'] PR'. cbn [snd] in PR'. destruct bad; [cbn [safe fst snd]; auto|].
  destruct (Z.ltb_spec (Z.of_nat m) (Z.of_nat d - Z.of_nat (zldim z1) - 1)) as [Left|Right].
  - eapply safe_bind; [apply (zswap_safe (zldim z1)); [lia|lia|exact K1]|]. intros z2 K2.
    eapply safe_bind; [apply (zreds_safe (zldim z1)); [intros j Hj; apply in_seq in Hj; lia|exact K2]|].
    intros z3 [W3 L3]. apply IH; [exact W3|lia|lia|exact PR'].
  - eapply safe_bind; [apply (zreds_safe (zldim z1)); [intros j Hj; apply in_seq in Hj; lia|exact K1]|].
    intros z2 K2. apply safe_guard; [bool_lia|].
    eapply safe_bind; [apply zright_safe; lia|]. intros m2 Hm2. cbn beta in Hm2.
    eapply safe_bind; [apply (zswap_safe (zldim z1)); [lia|lia|exact K2]|]. intros z3 K3.
    eapply safe_bind; [apply (zhsizereduce_safe (zldim z1)); [lia|exact K3]|].
    intros z4 [W4 L4]. apply IH; [exact W4|lia|lia|exact PR'].
Qed.

Lemma decomp_safe gamma target fuel junk z : zwf z -> zldim z < d -> (target <= Z.of_nat d)%Z ->
  safe (fun rz => zwf (snd rz) /\ zldim (snd rz) <= d) (decomp fp d n dec transf gap fuel gamma target junk z).
Proof.
  intros W L Ht. unfold decomp. apply safe_guard; [bool_lia|]. cbv zeta.
  eapply safe_bind; [apply (zreds_safe (zldim z)); [intros j Hj; apply in_seq in Hj; lia|split; [exact W|reflexivity]]|].
  intros z1 [W1 L1].
  assert (G : length (fold_left (fun g i => g ++ [fmul fp (nth (i - 1) g fz) gamma]) (seq 1 (d - 1)) [gamma]) = d).
  { rewrite (glist_length (fun i g => fmul fp (nth (i - 1) g fz) gamma)), seq_length. cbn. lia. }
  eapply safe_bind; [apply zmindiag_safe; lia|]. intros diag _.
  apply zloop_safe; try assumption; try lia. apply repeat_length.
Qed.

Lemma new_zfg_wf J A : zwf (new_zfg d n transf J A).
Proof. unfold zwf, new_zfg. zs. split; [apply mtab_wfm|]. split; [apply mtab_wfm|]. now rewrite map_length, seq_length. Qed.
End ZS.
