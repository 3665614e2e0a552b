(** * C100: the precision isreduced works at, and what its verdict does not depend on *)
From Coq Require Import ZArith Lia List Bool Arith Floats.
From Verif Require Import Base Spec Mat FP Hlll Hlll2 IntSteps HlllInt Structure Object Safety Cache Cache2 Cache7 Lcond IsredPrec Double Examples.
Import ListNotations.

(** the integer data of the object after a history: every column of the structure ends at the same row *)
Definition flat_structure {F} (d : nat) (L : lattice F) : Prop := forall i j, i < d -> j < d -> nth i (iS (li L)) 0 = nth j (iS (li L)) 0.

(** the outcome without the default precision *)
Definition outcome {A B C D} (a : res (A * B * C * D)) : res (A * B * C) :=
  match a with Ok (r, st, L, _) => Ok (r, st, L) | UB => UB | NoFuel => NoFuel end.

Section C100.
Context {F : Type} (fp0 : fpops F) (mpf : Z -> fpops F).
Hypothesis EX0 : expo_nonneg fp0.
Hypothesis EX : forall p, expo_nonneg (mpf p).

(** The arithmetic in use before the call is fp0, mpf p the one at precision p.  [object_on J L]: a new object with the
    integer data and configuration of L, arbitrary initial memory J, no test counted.  The verdict 0 is: hlll on such an
    object, in precision 53 for d <= 20 and 2d otherwise, makes d-1 tests *)
Theorem C100_isreduced_precision :
  forall J0 n d A u m lg vd calls L, 2 <= d <= n -> precisions_ok calls ->
  run fp0 calls (new_lattice fp0 J0 n d A u m lg vd) = Ok L -> independent n d (current (fn A) calls) ->
  (m < 1)%Z \/ lg = true ->
  forall p, (d <= 20 /\ p = 53%Z) \/ (20 < d /\ p = (2 * Z.of_nat d)%Z) ->
  flat_structure d L \/ zero_laws (mpf p) ->
  forall getprec fuel delta junk junk' J J1 J2 dprec,
    same_verdict d (outcome (isreduced_prec mpf getprec fuel delta junk J1 J2 dprec L))
                   (hlll (mpf p) fuel delta false junk' (object_on (mpf p) J L)).
Proof.
  intros J0 n d A u m lg vd calls L [D2 ND] PR H I ML p HP SO getprec fuel delta junk junk' J J1 J2 dprec.
  pose proof (run_safe fp0 n d calls _ ND D2 (new_lsafe fp0 J0 n d A u m lg vd)) as LS. rewrite H in LS. cbn [safe] in LS.
  pose proof (keeps_run fp0 EX0 n d u m lg calls PR _ _ H (keeps_new fp0 J0 n d A u m lg vd)) as K.
  pose proof H as H'. eapply run_pres in H' as [DM (Hb & V & UV & EV)]; eauto; [|apply new_dims|apply new_pres].
  assert (IB : independent n d (fn (iB (li L)))).
  { eapply independent_ext; [intros i j Hi Hj; symmetry; now apply EV|]. now apply independent_mul. }
  assert (E : p = if (cd (lcfg L) <=? 20) then 53%Z else (2 * Z.of_nat (cd (lcfg L)))%Z).
  { destruct LS as (_ & -> & _). destruct (Nat.leb_spec d 20); destruct HP as [[? ->]|[? ->]]; (reflexivity || lia). }
  pose proof (isreduced_object_on (mpf p) (EX p) n d L ND D2 LS Hb IB) as Q.
  unfold isreduced_prec. rewrite <- E. 
  assert (Q1 : const_struct (lcfg L) (li L) \/ zero_laws (mpf p)).
  { destruct SO as [SO|SO]; [left|now right]. intros i j Hi Hj. destruct LS as (_ & E2 & _). rewrite E2 in Hi, Hj. now apply SO. }
  assert (Q2 : (cseysen (lcfg L) < 1)%Z \/ clong (lcfg L) = true).
  { destruct K as ((_ & _ & _ & K2) & K3 & _). rewrite K3. destruct ML as [ML| ->]; [left; lia|now right]. }
  specialize (Q Q1 Q2 fuel delta junk junk' J J1 J2).
  destruct (isreduced (mpf p) fuel delta junk J1 J2 L) as [[[r st] L']| |]; cbn [bind outcome]; exact Q.
Qed.

(** two objects with the same basis, transformation, structure and configuration, after any two histories: same verdict and same
    matrices.  With L1 = L2: the default precision, getprec() and the uninitialised memory play no role *)
Theorem C100_isreduced_anywhere :
  forall n d u m lg J1 A1 vd1 calls1 L1 J2 A2 vd2 calls2 L2, 2 <= d <= n ->
  precisions_ok calls1 -> run fp0 calls1 (new_lattice fp0 J1 n d A1 u m lg vd1) = Ok L1 -> independent n d (current (fn A1) calls1) ->
  precisions_ok calls2 -> run fp0 calls2 (new_lattice fp0 J2 n d A2 u m lg vd2) = Ok L2 -> independent n d (current (fn A2) calls2) ->
  li L1 = li L2 -> lcfg L1 = lcfg L2 ->
  (m < 1)%Z \/ lg = true -> flat_structure d L1 \/ (forall p, zero_laws (mpf p)) ->
  forall getprec getprec' fuel delta junk junk' Ja Ja' Jb Jb' dprec dprec',
    match outcome (isreduced_prec mpf getprec fuel delta junk Ja Jb dprec L1),
          outcome (isreduced_prec mpf getprec' fuel delta junk' Ja' Jb' dprec' L2) with
    | Ok (r, st, La), Ok (r', st', Lb) => r = r' /\ st = st' /\ getbase La = getbase Lb /\ getU La = getU Lb
    | NoFuel, NoFuel => True
    | _, _ => False
    end.
Proof.
  intros n d u m lg J1 A1 vd1 calls1 L1 J2 A2 vd2 calls2 L2 DN PR1 H1 I1 PR2 H2 I2 EL EC ML SO gp gp' fuel delta junk junk' Ja Ja' Jb Jb' dprec dprec'.
  assert (HP : exists p, (d <= 20 /\ p = 53%Z) \/ (20 < d /\ p = (2 * Z.of_nat d)%Z)).
  { destruct (Nat.le_gt_cases d 20); eexists; [left|right]; split; eauto. }
  destruct HP as (p & HP). assert (SP : flat_structure d L1 \/ zero_laws (mpf p)) by (destruct SO; auto).
  assert (SP2 : flat_structure d L2 \/ zero_laws (mpf p)) by (unfold flat_structure in *; rewrite EL in SP; exact SP).
  pose proof (C100_isreduced_precision J1 n d A1 u m lg vd1 calls1 L1 DN PR1 H1 I1 ML p HP SP gp fuel delta junk junk Ja Ja Jb dprec) as Q1.
  pose proof (C100_isreduced_precision J2 n d A2 u m lg vd2 calls2 L2 DN PR2 H2 I2 ML p HP SP2 gp' fuel delta junk' junk Ja Ja' Jb' dprec') as Q2.
  assert (EO : object_on (mpf p) Ja L1 = object_on (mpf p) Ja L2) by (unfold object_on; now rewrite EL, EC). rewrite EO in Q1.
  destruct (outcome (isreduced_prec mpf gp fuel delta junk Ja Jb dprec L1)) as [[[r st] La]| |];
    destruct (outcome (isreduced_prec mpf gp' fuel delta junk' Ja' Jb' dprec' L2)) as [[[r' st'] Lb]| |];
    destruct (hlll (mpf p) fuel delta false junk (object_on (mpf p) Ja L2)) as [[q L3]| |]; cbn [same_verdict] in *; try contradiction; auto.
  destruct Q1 as (-> & E1 & U1 & [[-> S1]|[-> S1]]), Q2 as (-> & E2 & U2 & [[-> S2]|[-> S2]]); (contradiction || (rewrite E1, E2, U1, U2; auto)).
Qed.
End C100.

(** both verdicts, after a history, over doubles: a new object, and the same object after hlll *)
Lemma verdict_of {A C D} (a : res (A * Z * C * D)) v : match a with Ok (_, st, _, _) => (st =? v)%Z = true | _ => False end ->
  exists r L p, a = Ok (r, v, L, p).
Proof. destruct a as [[[[r st] L] p]| |]; try contradiction. intros E. apply Z.eqb_eq in E as ->. now exists r, L, p. Qed.
Local Notation ex_L := (new_lattice dbl Jz 4 3 A1 false 0 true 0).
Example C100_case : independent 4 3 (current (fn A1) (@nil (@call PrimFloat.float))) /\ flat_structure 3 ex_L /\
  (exists r L p, isreduced_prec (fun _ => dbl) (fun p => p) 100 d99 0%float Jz Jz 200 ex_L = Ok (r, (-1)%Z, L, p)) /\
  exists L', run dbl [CallHlll 200 d99 false 0%float] ex_L = Ok L' /\ flat_structure 3 L' /\
    exists r L p, isreduced_prec (fun _ => dbl) (fun p => p) 100 d99 0%float Jz Jz 200 L' = Ok (r, 0%Z, L, p).
Proof.
  split; [exact A1_independent|]. split; [intros i j Hi Hj; destruct i as [|[|[|i]]]; destruct j as [|[|[|j]]]; try lia; vm_compute; reflexivity|].
  split; [apply verdict_of; vm_compute; reflexivity|].
  eexists. split; [vm_compute; reflexivity|].
  split; [intros i j Hi Hj; destruct i as [|[|[|i]]]; destruct j as [|[|[|j]]]; try lia; reflexivity|].
  apply verdict_of. vm_compute. reflexivity.
Qed.

Print Assumptions C100_isreduced_precision.
Print Assumptions C100_isreduced_anywhere.
