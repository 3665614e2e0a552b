(** * C87: memory safety of segment LLL *)
From Coq Require Import ZArith Lia List Bool Arith Floats.
From Verif Require Import Base Spec Mat FP Hlll Hlll2 Safety Slll SlllPad SlllSafe Double Examples PropSlll.
Import ListNotations.
Local Open Scope nat_scope.

(** the calls a client may make on an object constructed for S0 segments with D columns (after padding) *)
Definition call_ok {F : Type} (S0 D : nat) (q : scall (F := F)) : Prop :=
  match q with
  | SHlll _ _ _ _ Sg _ => 0 < Sg <= S0
  | SRotate g => 1 <= g <= D
  end.

(** Constructor, then any sequence of hlll with at most as many segments as the constructor was given and of rotate:
    no access outside a matrix, a vector or swapstab, for every arithmetic, every content of the uninitialised memory,
    both size reduction methods, every matrix (dependent columns included) *)
Theorem C87_slll_safe :
  forall (F : Type) (fp : fpops F) (f0001 f501 fgap : F) (fmul2 : F -> Z -> F) J n d A S0 forU method long_flag depth
         (calls : list (scall (F := F))),
    1 <= d <= n -> 0 < S0 ->
    (forall q, In q calls -> call_ok S0 (d + pad_dim d (2 * S0)) q) ->
    (let* L := new_slattice fp J n d A S0 forU method long_flag depth in srun fp f0001 f501 fgap fmul2 calls L) <> UB.
Proof.
  intros F fp f0001 f501 fgap fmul2 J n d A S0 forU m lg vd calls Hd HS Hq.
  eapply safe_no_UB with (P := fun L => slsafe S0 L /\ cd (scfg L) = d + pad_dim d (2 * S0)).
  eapply safe_bind; [now apply new_slattice_safe|]. intros L (HL1 & HL2 & _). unfold srun. apply safe_mfold; [now split|].
  intros q L1 Iq [H1 H2]. specialize (Hq q Iq). destruct q as [fuel delta junk Jb Sg lovmax|g]; cbn [sexec call_ok] in *.
  - eapply safe_bind; [eapply slll_safe; eauto|]. intros [r L2] (G1 & G2 & _). cbn [snd safe] in *. split; [exact G1|congruence].
  - eapply safe_weaken; [|apply (sl_rotate_safe g S0 L1); [lia|exact H1]]. intros L2 [G1 G2]. split; [exact G1|congruence].
Qed.

(** more segments than the constructor was given, still dividing the columns: swapstab is written past its end *)
Theorem C87_more_segments_refuted :
  exists n d A S0 S L, 1 <= d <= n /\ 0 < S0 < S /\ d mod (2 * S) = 0 /\
    new_slattice dbl Jz n d A S0 true 0 true 0 = Ok L /\ dbl_srun [dbl_slll 60 S] L = UB.
Proof.
  exists 5, 4, AS, 1, 2.
  assert (X : match new_slattice dbl Jz 5 4 AS 1 true 0 true 0 with
              | Ok L => match dbl_srun [dbl_slll 60 2] L with UB => True | _ => False end | _ => False end) by (vm_compute; exact I).
  destruct (new_slattice dbl Jz 5 4 AS 1 true 0 true 0) as [L| |]; try contradiction.
  exists L. split; [lia|]. split; [lia|]. split; [reflexivity|]. split; [reflexivity|].
  destruct (dbl_srun _ L); [contradiction|reflexivity|contradiction].
Qed.

(** and rotate past the padded dimension *)
Theorem C87_rotate_refuted :
  exists n d A S0 L g, 1 <= d <= n /\ new_slattice dbl Jz n d A S0 true 0 true 0 = Ok L /\
    d + pad_dim d (2 * S0) < g /\ sl_rotate g L = UB.
Proof.
  exists 5, 4, AS, 2. eexists. exists 5. split; [lia|]. split; [reflexivity|]. split; [cbn; lia|]. reflexivity.
Qed.

(** the hypotheses are met: fewer segments than the constructor's, a rotation, both phases with swaps; the history ends *)
Example C87_case :
  1 <= 4 <= 5 /\ 0 < 2 /\
  (forall q, In q [dbl_slll 40 2; SRotate 3; dbl_slll 40 1] -> call_ok 2 (4 + pad_dim 4 (2 * 2)) q) /\
  match (let* L := new_slattice dbl Jz 5 4 AS 2 true 0 true 0 in dbl_srun [dbl_slll 40 2; SRotate 3; dbl_slll 40 1] L) with
  | Ok L => (0 < nbswaps (scnt L))%Z | _ => False end.
Proof.
  split; [lia|]. split; [lia|]. split.
  - intros q [<-|[<-|[<-|[]]]]; cbn; lia.
  - vm_compute. reflexivity.
Qed.

Print Assumptions C87_slll_safe.
Print Assumptions C87_more_segments_refuted.
Print Assumptions C87_rotate_refuted.
