(** * C70: the programs hplll and isreduced *)
From Coq Require Import ZArith Lia Reals Lra List Bool Arith String.
From Verif Require Import Base Spec Mat MatOps MatOpsFacts FP Hlll Hlll2 HlllM HlllMInt GObject Object SpecReal Det Structure Cache7 Exact ExactPot
  Slll Matpe MatpeExact Plain Sim PropExact PropMatpe PropMatpe3 PropIsred SpecIsred LinDep SpecProg Program ProgramFacts.
Import ListNotations.
Local Open Scope nat_scope.
Local Open Scope string_scope.

(** ** reading the options *)
Section Options.
Context {D : Type}.
Implicit Types (e : env D) (o : opts D).

Ltac deq := repeat match goal with |- context [String.eqb ?a ?b] => destruct (String.eqb_spec a b); subst end.

Lemma set_opt_none e a v o : ~ In a option_names -> set_opt e a v o = None.
Proof.
  intros H. destruct o. unfold set_opt.
  repeat match goal with |- context [String.eqb a ?b] => destruct (String.eqb_spec a b) as [->|]; [exfalso; apply H; cbn; tauto|] end.
  reflexivity.
Qed.
Lemma set_opt_some e a v o : In a option_names -> exists r, set_opt e a v o = Some r.
Proof.
  intros H. destruct o. unfold set_opt.
  cbn in H. repeat (destruct H as [<-|H]; [cbn; eauto|]). destruct H.
Qed.

(** the twelve values after a list of pairs *)
Definition after e (ps : list (string * string)) o : opts D :=
  mkO (last_value rd_word "-type" (o_type o) ps) (last_value rd_int "-d" (o_d o) ps) (last_value rd_int "-m" (o_m o) ps)
      (last_value (rd_dbl e) "-delta" (o_delta o) ps) (last_value rd_int "-bits" (o_bits o) ps)
      (last_value (rd_dbl e) "-alpha" (o_alpha o) ps) (last_value rd_int "-output" (o_output o) ps)
      (last_value rd_int "-q" (o_q o) ps) (last_value rd_int "-N" (o_N o) ps) (last_value rd_int "-X" (o_X o) ps)
      (last_value rd_int "-h" (o_h o) ps) (last_value rd_int "-shift" (o_shift o) ps).

Lemma set_opt_after e a v o ps : In a option_names ->
  (a = "-type" -> forall w, rd_word v = Some w -> String.length w < 8) ->
  exists o', set_opt e a v o = Some (Ok o') /\ after e ps o' = after e ((a, v) :: ps) o.
Proof.
  intros H HT. destruct o. cbn in H.
  repeat (destruct H as [<-|H]; [|]); try destruct H;
    try (eexists; split; [cbn; reflexivity|]; unfold after; cbn; reflexivity).
  specialize (HT eq_refl). unfold set_opt, after. cbn [last_value String.eqb Ascii.eqb Bool.eqb].
  destruct (rd_word v) as [w|].
  - specialize (HT w eq_refl). apply Nat.ltb_lt in HT. rewrite HT. cbn [guard]. eexists. split; [reflexivity|]. reflexivity.
  - eexists. split; [reflexivity|]. reflexivity.
Qed.

Lemma parse_reads e args ps : reads args ps -> forall o, types_fit rd_word ps -> parse e args o = Ok (after e ps o).
Proof.
  induction 1 as [|a v rest ps Ha H IH|w rest ps Hw H IH]; intros o HT.
  - destruct o. reflexivity.
  - cbn [parse hd].
    destruct (set_opt_after e a v o ps Ha) as (o' & E & EA).
    { intros -> w. apply HT. now left. }
    rewrite E. cbn [bind]. rewrite IH; [now rewrite EA|]. intros v' w' Hin. apply HT. now right.
  - cbn [parse]. rewrite set_opt_none by assumption. now apply IH.
Qed.

Lemma in_names (a : string) : {In a option_names} + {~ In a option_names}.
Proof. apply in_dec, string_dec. Qed.

Lemma parse_noreads e : forall k args, List.length args <= k -> (forall ps, ~ reads args ps) -> forall o, parse e args o = UB.
Proof.
  induction k as [|k IH]; intros args Hk HN o.
  - destruct args; [|cbn in Hk; lia]. exfalso. eapply HN. constructor.
  - destruct args as [|a rest]; [exfalso; eapply HN; constructor|]. cbn [parse].
    destruct (in_names a) as [Ha|Ha].
    + destruct (set_opt_some e a (hd "" rest) o Ha) as (r & E). rewrite E. destruct rest as [|v rest]; [reflexivity|].
      destruct r as [o'| |] eqn:Er; cbn [bind]; auto.
      * apply IH; [cbn in Hk; lia|]. intros ps Hps. eapply HN. eapply reads_pair; eauto.
      * exfalso. clear -E. destruct o. unfold set_opt in E. cbn [hd] in E.
        repeat match type of E with context [String.eqb ?x ?b] => destruct (String.eqb x b); [try discriminate E|] end; try discriminate E.
        destruct (rd_word v); [|discriminate E]. destruct (_ <? 8)%nat; discriminate E.
    + rewrite set_opt_none by assumption. apply IH; [cbn in Hk; lia|]. intros ps Hps. eapply HN. eapply reads_skip; eauto.
Qed.
End Options.

(** every option has the value of its last readable occurrence or its default, whatever the order and whatever other
    words there are; a command line that ends with an option name has no value for it and is undefined *)
Theorem C70_options :
  forall (D : Type) (e : env D) args,
    (forall ps, reads args ps -> types_fit rd_word ps ->
      exists o, parse e args (defaults e) = Ok o /\
        o_type o = last_value rd_word "-type" "r" ps /\ o_d o = last_value rd_int "-d" 8%Z ps /\
        o_m o = last_value rd_int "-m" 1%Z ps /\ o_delta o = last_value (rd_dbl e) "-delta" (d_delta e) ps /\
        o_bits o = last_value rd_int "-bits" 10%Z ps /\ o_alpha o = last_value (rd_dbl e) "-alpha" (d_alpha e) ps /\
        o_output o = last_value rd_int "-output" 0%Z ps /\ o_shift o = last_value rd_int "-shift" 10%Z ps /\
        o_N o = last_value rd_int "-N" (j_N e) ps /\ o_X o = last_value rd_int "-X" (j_X e) ps /\
        o_h o = last_value rd_int "-h" (j_h e) ps /\ o_q o = last_value rd_int "-q" (j_q e) ps) /\
    ((forall ps, ~ reads args ps) -> parse e args (defaults e) = UB).
Proof.
  intros D e args. split.
  - intros ps H HT. exists (after e ps (defaults e)). split; [now apply parse_reads|]. repeat split.
  - intros H. eapply parse_noreads; eauto.
Qed.

(** ** the program hplll *)

(** the lattice printed: for every scalar type and matrix class, the rows printed generate the lattice generated by the
    columns of the basis built from the command line, as many and as long; the exit status is always 0 *)
Lemma main_lattice (D F M : Type) (so : sops F) (mo : nat -> nat -> mops F M) : gse_nonneg so ->
  forall f0 dl junk fuel vd (e : env D) (g : gens D) args input out st,
    hplll_main so mo f0 dl junk fuel vd e g args input = Ok (out, st) ->
    exists A n d delta, command_line_basis e g args input = Ok (A, n, d, delta) /\ dr A = n /\ dc A = d /\ dwf A /\
      st = 0%Z /\ dr out = d /\ dc out = n /\ same_lattice n d (ent A) (mtr (ent out)).
Proof.
  intros EX f0 dl junk fuel vd e g args input out st H. unfold hplll_main in H.
  apply bind_Ok in H as ([[[A n] d] delta] & HC & H).
  exists A, n, d, delta. split; [exact HC|]. pose proof HC as HC'. unfold command_line_basis in HC'.
  apply bind_Ok in HC' as (o & _ & HC'). apply bind_Ok in HC' as ([[A' n'] d'] & HG & HC'). injection HC' as <- <- <- <-.
  apply generate_shape in HG as (D1 & D2 & W). split; [exact D1|]. split; [exact D2|]. split; [exact W|].
  apply bind_Ok in H as ([r L] & HL & H). apply bind_Ok in H as (AT & HT & H). injection H as <- <-.
  split; [reflexivity|]. rewrite D1, D2 in *.
  set (L0 := g_new _ _ _ _ _ _ _ _) in HL.
  assert (RUN : grun so (mo n' d') [GHlll fuel (dl (o_delta o)) true junk] L0 = Ok L).
  { unfold grun. cbn [mfold gexec]. rewrite HL. reflexivity. }
  pose proof (C65_same_lattice_any_matrix_class _ _ so (mo n' d') EX _ _ _ _ _ _ _ _ _ _ RUN) as SL. cbn [gcurrent] in SL.
  assert (Q : is (mkD n' d' (g_getbase L)) n' d' (fn (g_getbase L))).
  { split; [|split; [reflexivity|split; [reflexivity|intros; reflexivity]]]. unfold dwf. cbn [dr dc de]. unfold g_getbase.
    unfold g_hlll in HL. apply bind_Ok in HL as ([[[r1 s1] f1] q1] & _ & HL). injection HL as <- <-. cbn [glcfg gli L0 g_new cn cd]. apply mtab_wfm. }
  destruct (transpose_is _ _ _ _ Q) as (AT' & ET & (WT & T1 & T2 & T3)). rewrite ET in HT. injection HT as <-.
  split; [exact T1|]. split; [exact T2|].
  intros v. rewrite (SL v). split; intros (c & Hc); exists c; intros i Hi; rewrite (Hc i Hi); apply sumZ_ext; intros j Hj; unfold mtr;
    rewrite T3 by assumption; reflexivity.
Qed.

(** the rows that -type cin reads and the rows printed generate the same lattice *)
Theorem C70_same_lattice :
  forall (D F M : Type) (so : sops F) (mo : nat -> nat -> mops F M), gse_nonneg so ->
  forall f0 dl junk fuel vd (e : env D) (g : gens D) args ps input out st, dwf input ->
    reads args ps -> types_fit rd_word ps -> last_value rd_word "-type" "r" ps = "cin" ->
    hplll_main so mo f0 dl junk fuel vd e g args input = Ok (out, st) ->
    dr out = dr input /\ dc out = dc input /\ same_lattice (dc input) (dr input) (mtr (ent input)) (mtr (ent out)).
Proof.
  intros D F M so mo EX f0 dl junk fuel vd e g args ps input out st W HR HF HT H.
  destruct (main_lattice _ _ _ so mo EX _ _ _ _ _ _ _ _ _ _ _ H) as (A & n & d & delta & HC & D1 & D2 & WA & _ & E1 & E2 & SL).
  unfold command_line_basis in HC. rewrite (parse_reads e args ps HR _ HF) in HC. cbn [bind] in HC.
  apply bind_Ok in HC as ([[A' n'] d'] & HG & HC). injection HC as -> -> -> _.
  unfold generate in HG. cbn [after o_type] in HG. cbn [defaults o_type] in HG. rewrite HT in HG. cbn [String.eqb Ascii.eqb Bool.eqb orb] in HG.
  apply bind_Ok in HG as (B & HB & HG). injection HG as -> <- <-.
  destruct (transpose_is input (dr input) (dc input) (ent input)) as (B' & EB & (_ & _ & _ & QB)).
  { split; [exact W|]. split; [reflexivity|]. split; [reflexivity|]. auto. }
  rewrite EB in HB. injection HB as <-.
  split; [exact E1|]. split; [exact E2|].
  intros v. rewrite <- (SL v). split; intros (c & Hc); exists c; intros i Hi; rewrite (Hc i Hi); apply sumZ_ext; intros j Hj; unfold mtr;
    rewrite QB by assumption; reflexivity.
Qed.

(** the instances of the program: doubles with separate exponents, int exponents checked or wrapping *)
Theorem C70_exit_status :
  forall (D F M : Type) (so : sops F) (mo : nat -> nat -> mops F M) f0 dl junk fuel vd (e : env D) (g : gens D) args input out st,
    hplll_main so mo f0 dl junk fuel vd e g args input = Ok (out, st) -> st = 0%Z.
Proof.
  intros D F M so mo f0 dl junk fuel vd e g args input out st H. unfold hplll_main in H.
  apply bind_Ok in H as ([[[A n] d] delta] & _ & H). apply bind_Ok in H as ([r L] & _ & H).
  apply bind_Ok in H as (AT & _ & H). now injection H as _ <-.
Qed.

Lemma potential_ext n d A B : meq n d A B -> potential n d A = potential n d B.
Proof.
  intros H. apply prodZ_ext. intros k Hk. apply eq_IZR. rewrite !detZ_IZR. apply detR_ext. intros i j Hi Hj. apply f_equal.
  unfold gramZ. apply sumZ_ext. intros l Hl. now rewrite !H by lia.
Qed.

(** in exact arithmetic the program ends and prints an LLL-reduced basis *)
Lemma main_exact (D T G : Type) (fp : fpops R) (so : sops G) (tp : tops T G) (tv : T -> R) (v : G -> R) :
  exact fp -> (forall x, Rabs x <= / 2 -> frnd fp x = 0)%R -> slaws fp so v -> tlaws tp tv v ->
  forall jVR jnB2 jtoR jx jn dl junk fuel vd (e : env D) (g : gens D) args input A n d delta,
    command_line_basis e g args input = Ok (A, n, d, delta) ->
    independent n d (ent A) -> (2 <= d)%nat -> (v (dl delta) <= 1)%R ->
    (2 * potential n d (ent A) + Z.of_nat d + 1 <= Z.of_nat fuel < 4294967295)%Z ->
    exists out, hplll_main so (pe_ops tp) (fun n d => pe_init tp n d jVR jnB2 jtoR jx jn) dl junk fuel vd e g args input = Ok (out, 0%Z) /\
      dr out = d /\ dc out = n /\ LLL_reduced n d (v (dl delta)) (mtr (ent out)).
Proof.
  intros X HH SL TL jVR jnB2 jtoR jx jn dl junk fuel vd e g args input A n d delta HC HI D2 HD [F1 F2].
  pose proof HC as HC'. unfold command_line_basis in HC'.
  apply bind_Ok in HC' as (o & _ & HC'). apply bind_Ok in HC' as ([[A' n'] d'] & HG & HC'). injection HC' as -> -> -> ED.
  apply generate_shape in HG as (D1 & D2' & W).
  destruct (C67_MatrixPE_terminates T G fp so tp tv v X HH SL TL n d jVR jnB2 jtoR jx jn (de A) false 0%Z true vd 1000000%Z 4294967295%Z
    HI ltac:(lia) fuel (dl delta) true junk HD F1) as (Lg & E & HR).
  specialize (HR F2 D2).
  unfold hplll_main. rewrite HC. cbn [bind]. rewrite D1, D2'.
  change (g_new (pe_init tp n d jVR jnB2 jtoR jx jn) n d (de A) false 0%Z true vd)
    with (g_fresh_object (pe_init tp n d jVR jnB2 jtoR jx jn) n d (de A) false 0%Z true vd 1 1000000%Z 4294967295%Z).
  rewrite E. cbn [bind].
  assert (Q : is (mkD n d (g_getbase Lg)) n d (fn (g_getbase Lg))).
  { split; [|split; [reflexivity|split; [reflexivity|intros; reflexivity]]]. unfold dwf. cbn [dr dc de]. unfold g_getbase.
    unfold g_hlll in E. apply bind_Ok in E as ([[[r1 s1] f1] q1] & _ & E). injection E as _ <-.
    cbn [glcfg gli g_fresh_object g_set_nblov_max g_set_num_S g_new cn cd]. apply mtab_wfm. }
  destruct (transpose_is _ _ _ _ Q) as (AT' & ET & (WT & T1 & T2 & T3)). rewrite ET. cbn [bind].
  exists AT'. split; [reflexivity|]. split; [exact T1|]. split; [exact T2|].
  destruct HR as (r & RF & HR). exists r. split; [|exact HR]. eapply IsredExact.rf_meq; [|exact RF].
  intros i j Hi Hj. unfold mtr. now rewrite T3.
Qed.

Theorem C70_reduces :
  forall (D T G : Type) (fp : fpops R) (so : sops G) (tp : tops T G) (tv : T -> R) (v : G -> R),
  exact fp -> (forall x, Rabs x <= / 2 -> frnd fp x = 0)%R -> slaws fp so v -> tlaws tp tv v ->
  forall jVR jnB2 jtoR jx jn dl junk fuel vd (e : env D) (g : gens D) args ps input, dwf input ->
    reads args ps -> types_fit rd_word ps -> last_value rd_word "-type" "r" ps = "cin" ->
    let n := dc input in let d := dr input in let delta := v (dl (last_value (rd_dbl e) "-delta" (d_delta e) ps)) in
    independent n d (mtr (ent input)) -> (2 <= d)%nat -> (delta <= 1)%R ->
    (2 * potential n d (mtr (ent input)) + Z.of_nat d + 1 <= Z.of_nat fuel < 4294967295)%Z ->
    exists out, hplll_main so (pe_ops tp) (fun n d => pe_init tp n d jVR jnB2 jtoR jx jn) dl junk fuel vd e g args input = Ok (out, 0%Z) /\
      dr out = d /\ dc out = n /\ LLL_reduced n d delta (mtr (ent out)).
Proof.
  intros D T G fp so tp tv v X HH SL TL jVR jnB2 jtoR jx jn dl junk fuel vd e g args ps input W HR HF HT n d delta HI D2 HD HFu.
  destruct (transpose_is input (dr input) (dc input) (ent input)) as (B & EB & (_ & _ & _ & QB)).
  { split; [exact W|]. split; [reflexivity|]. split; [reflexivity|]. auto. }
  assert (ME : meq n d (mtr (ent input)) (ent B)) by (intros i j Hi Hj; unfold mtr; now rewrite QB).
  eapply (main_exact D T G fp so tp tv v X HH SL TL jVR jnB2 jtoR jx jn dl junk fuel vd e g args input B n d).
  - unfold command_line_basis. rewrite (parse_reads e args ps HR _ HF). cbn [bind].
    unfold generate. cbn [after o_type defaults]. rewrite HT. cbn [String.eqb Ascii.eqb Bool.eqb orb]. rewrite EB. cbn [bind].
    cbn [o_delta defaults]. reflexivity.
  - eapply independent_ext; [exact ME|exact HI].
  - exact D2.
  - exact HD.
  - rewrite <- (potential_ext n d _ _ ME). exact HFu.
Qed.

(** a run of the program with doubles (dpe_t), by computation: -type cin on the rows of the transpose of Examples.A1 *)
Definition ex_env : env dpe_t := mkE (fun _ => None) dd99 dd99 0 0 0 0.
Definition ex_gens : gens dpe_t := mkG (fun p i j b => Z.of_nat (7 * i + 3 * j + 5 * p + 1) mod 2 ^ b)%Z
  (fun _ _ _ _ => 0%Z) (fun _ _ _ _ _ => 0%Z) (fun _ k => Z.of_nat k) (fun r t => r)%Z.
Definition rows3 : dmat := mkD 3 4 [[1;0;0];[0;1;0];[0;0;1];[100;37;59]]%Z.
Definition main_dpe (fuel : nat) (args : list string) (input : dmat) :=
  hplll_main dpe_sops (pe_ops dpe_tops) (dpe_f0 dpe_tops) (fun x => x) dz fuel 0%Z ex_env ex_gens args input.
Example C70_case :
  main_dpe 200 ["-type"; "cin"] rows3 = Ok (mkD 3 4 [[-1;2;3];[1;1;-5];[1;-4;-2];[-4;1;-3]]%Z, 0%Z) /\
  reads ["-type"; "cin"] [("-type", "cin")] /\ types_fit rd_word [("-type", "cin")] /\
  last_value rd_word "-type" "r" [("-type", "cin")] = "cin" /\ dwf rows3 /\ independent 4 3 (mtr (ent rows3)).
Proof.
  split; [vm_compute; reflexivity|]. split; [constructor; [cbn; tauto|constructor]|].
  split; [intros v w [[= <-]|[]] [= <-]; cbn; lia|]. split; [reflexivity|].
  split; [split; [reflexivity|repeat constructor]|].
  eapply independent_ext; [|exact Examples.A1_independent]. intros i j Hi Hj.
  destruct i as [|[|[|[|]]]]; try lia; destruct j as [|[|[|]]]; try lia; reflexivity.
Qed.

(** exact arithmetic: the hypotheses of C70_reduces hold for the same command line *)
Definition rows_s : dmat := mkD 2 3 [[5;1];[0;2];[1;0]]%Z.
Lemma rows_s_ok : dwf rows_s /\ independent 3 2 (mtr (ent rows_s)).
Proof.
  split; [split; [reflexivity|repeat constructor]|].
  intros c Hc j Hj. pose proof (Hc 1 ltac:(lia)) as H1. pose proof (Hc 2 ltac:(lia)) as H2.
  cbv [sumZ fn mget col nth mtr ent rows_s de] in H1, H2. assert (c 0 = 0%Z /\ c 1 = 0%Z) by lia.
  destruct j as [|[|]]; try lia.
Qed.
Example C70_case_exact : exists fuel out,
  hplll_main xsops (pe_ops xtops) (fun n d => pe_init xtops n d (fun _ _ => xof 7) (fun _ => xof 7) (fun _ => xof 7) (xof 7) 3)
    (fun x : R => xof x) (xof 7) fuel 0%Z (mkE (fun _ => None) (3 / 4)%R 1%R 0%Z 0%Z 0%Z 0%Z)
    (mkG (fun _ _ _ _ => 0%Z) (fun _ _ _ _ => 0%Z) (fun _ _ _ _ _ => 0%Z) (fun _ _ => 0%Z) (fun _ _ => 0%Z)) ["-type"; "cin"] rows_s = Ok (out, 0%Z) /\
  LLL_reduced 3 2 (3 / 4) (mtr (ent out)).
Proof.
  destruct C70_case as (_ & H1 & H2 & H3 & _ & _). destruct rows_s_ok as (H4 & H5).
  assert (P : (0 <= 2 * potential 3 2 (mtr (ent rows_s)) + 3 < 4294967295)%Z) by (vm_compute; split; [discriminate|reflexivity]).
  set (fuel := Z.to_nat (2 * potential 3 2 (mtr (ent rows_s)) + 3)).
  edestruct (C70_reduces R R (R * Z) Rfp0 xsops xtops (fun x => x) xval Rfp0_exact Rfp0_half xslaws xtlaws
    (fun _ _ => xof 7) (fun _ => xof 7) (fun _ => xof 7) (xof 7) 3 (fun x => xof x) (xof 7) fuel 0%Z
    (mkE (fun _ => None) (3 / 4)%R 1%R 0%Z 0%Z 0%Z 0%Z)
    (mkG (fun _ _ _ _ => 0%Z) (fun _ _ _ _ => 0%Z) (fun _ _ _ _ _ => 0%Z) (fun _ _ => 0%Z) (fun _ _ => 0%Z))
    ["-type"; "cin"] _ rows_s H4 H1 H2 H3) as (out & E & _ & _ & HR).
  - exact H5.
  - cbn. lia.
  - cbn [last_value rd_dbl d_delta]. cbn. rewrite xof_val. lra.
  - unfold fuel. rewrite Z2Nat.id by lia. cbn [dr dc rows_s]. lia.
  - exists fuel, out. split; [exact E|]. cbn in HR. rewrite xof_val in HR. exact HR.
Qed.

(** with doubles the exit status says nothing: the program can print a basis that is not even size reduced and exit
    with status 0 (independent rows (2^200,1,3), (2^200+1,1,5)) *)
Definition rows2 : dmat := mkD 2 3 [[2^200; 2^200+1]; [1;1]; [3;5]]%Z.
Theorem C70_reduced_with_doubles_refuted :
  ~ (forall fuel args input out, dwf input -> independent (dc input) (dr input) (mtr (ent input)) ->
       main_dpe fuel args input = Ok (out, 0%Z) ->
       exists r, R_factor (dc input) (dr input) (mtr (ent out)) r /\ size_reduced (dr input) r).
Proof.
  intros H.
  assert (E : main_dpe 300 ["-type"; "cin"] rows2 = Ok (mkD 2 3
    [[1; 1285550435407192345814853959848238596787428395068564801847296]; [0; 1];
     [2; -642775217703595859454216264985848011469549197428456066908157]]%Z, 0%Z)) by (vm_compute; reflexivity).
  assert (HI : independent 3 2 (mtr (ent rows2))).
  { intros c Hc j Hj. pose proof (Hc 1 ltac:(lia)) as H1. pose proof (Hc 2 ltac:(lia)) as H2.
    cbv [sumZ fn mget col nth mtr ent rows2 de] in H1, H2. assert (c 0 = 0%Z /\ c 1 = 0%Z) by lia.
    destruct j as [|[|]]; try lia. }
  assert (HW : dwf rows2) by (split; [reflexivity|repeat constructor]).
  specialize (H _ _ _ _ HW HI E).
  match type of E with _ = Ok (?M, _) => set (out := M) in * end.
  destruct H as (r & RF & H). cbn [dr dc rows2] in RF, H.
  specialize (H 0 1 ltac:(lia)). destruct RF as (U & Dg & G).
  pose proof (G 0 0 ltac:(lia) ltac:(lia)) as G0. pose proof (G 0 1 ltac:(lia) ltac:(lia)) as G1. 
  cbn [sumR] in G0, G1. rewrite (U 1 0) in G0, G1 by lia.
  cbv [sumZ fn mget col nth mtr ent out de] in G0, G1. ring_simplify in G0. ring_simplify in G1.
  set (x := r 0 0) in *. set (y := r 0 1) in *.
  match type of G1 with _ = IZR ?z => let z' := eval vm_compute in z in change z with z' in G1 end.
  change (IZR (0 + 1 * 1 + 0 * 0 + 2 * 2)) with 5%R in G0.
  assert (K : (Rabs (x * y) <= 1 / 2 * (x * x))%R).
  { rewrite Rabs_mult. pose proof (Rabs_pos x). assert (E2 : (x * x = Rabs x * Rabs x)%R) by
      (rewrite <- Rabs_mult; symmetry; apply Rabs_pos_eq; nra). rewrite E2. nra. }
  rewrite G1 in K. rewrite Rabs_pos_eq in K by lra. lra.
Qed.

(** ** the program isreduced, in exact arithmetic *)
Theorem C70_isreduced_program :
  forall (fp : fpops R), exact fp -> (forall x, Rabs x <= / 2 -> frnd fp x = 0)%R ->
  forall J J1 J2 junk fuel vd input, dwf input ->
    let n := dc input in let d := dr input in
    independent n d (mtr (ent input)) -> (2 <= d)%nat -> (Z.of_nat d <= 4294967295)%Z ->
    (2 * potential n d (mtr (ent input)) + Z.of_nat d + 1 <= Z.of_nat fuel)%Z ->
    exists verdict, isreduced_main fp (3 / 4)%R J J1 J2 junk fuel vd input = Ok (verdict, 0%Z) /\
      ((verdict = 0%Z /\ LLL_up_to_size n d (3 / 4) (mtr (ent input))) \/
       (verdict = (-1)%Z /\ ~ LLL_up_to_size n d (3 / 4) (mtr (ent input)))).
Proof.
  intros fp X HH J J1 J2 junk fuel vd input W n d HI D2 NB HF. unfold isreduced_main.
  destruct (transpose_is input (dr input) (dc input) (ent input)) as (B & EB & (_ & B1 & B2 & QB)).
  { split; [exact W|]. split; [reflexivity|]. split; [reflexivity|]. auto. }
  rewrite EB. cbn [bind]. rewrite B1, B2. fold n d.
  assert (ME : meq n d (mtr (ent input)) (fn (de B))) by (intros i j Hi Hj; unfold mtr; symmetry; now apply QB).
  assert (IB : independent n d (fn (de B))) by (eapply independent_ext; [exact ME|exact HI]).
  change (new_lattice fp J n d (de B) false 0%Z false vd) with (fresh_object fp J n d (de B) false 0%Z false vd 1 1000000%Z 4294967295%Z).
  destruct (C68_isreduced_terminates fp X HH J n d (de B) false 0%Z false vd 1000000%Z 4294967295%Z IB ltac:(lia) D2 NB fuel (3 / 4)%R junk J1 J2
    ltac:(lra)) as (st & L & E).
  { rewrite <- (potential_ext n d _ _ ME). exact HF. }
  pose proof (C68_isreduced_decides fp X J n d (de B) false 0%Z false vd 1000000%Z 4294967295%Z IB ltac:(lia) D2 NB fuel (3 / 4)%R junk J1 J2
    ltac:(lra)) as H.
  rewrite E in *. cbn [bind]. exists st. split; [reflexivity|].
  assert (EQ : LLL_up_to_size n d (3 / 4) (mtr (ent input)) <-> LLL_up_to_size n d (3 / 4) (fn (de B))).
  { split; intros (T & HT & r & RF & HR); exists T; (split; [exact HT|]); exists r; (split; [|exact HR]);
      (eapply IsredExact.rf_meq; [|exact RF]); intros i j Hi Hj; unfold mmul; apply sumZ_ext; intros l Hl; rewrite (ME i l) by assumption; reflexivity. }
  rewrite EQ. exact H.
Qed.
Example C70_isreduced_case : exists fuel verdict,
  isreduced_main Rfp0 (3 / 4)%R JR JR JR 0%R fuel 0%Z rows_s = Ok (verdict, 0%Z).
Proof.
  destruct rows_s_ok as (H4 & H5).
  assert (P : (0 <= 2 * potential 3 2 (mtr (ent rows_s)) + 3)%Z) by (vm_compute; discriminate).
  set (fuel := Z.to_nat (2 * potential 3 2 (mtr (ent rows_s)) + 3)).
  destruct (C70_isreduced_program Rfp0 Rfp0_exact Rfp0_half JR JR JR 0%R fuel 0%Z rows_s H4 H5) as (v & E & _).
  - cbn. lia.
  - cbn. lia.
  - unfold fuel. rewrite Z2Nat.id by lia. cbn [dr dc rows_s]. lia.
  - exists fuel, v. exact E.
Qed.

Print Assumptions C70_options.
Print Assumptions C70_same_lattice.
Print Assumptions C70_exit_status.
Print Assumptions C70_reduces.
Print Assumptions C70_reduced_with_doubles_refuted.
Print Assumptions C70_isreduced_program.
