(** * C71: the bases of the command line (command_line_basis, model in Program.v) *)
From Coq Require Import ZArith Lia Reals Lra List Bool Arith String.
From Verif Require Import Base Spec Mat MatOps MatOpsFacts Structure Slll LinDep SpecProg Program ProgramFacts PropProgram.
Import ListNotations.
Local Open Scope string_scope.
Local Open Scope nat_scope.

Section Generators.
Context {D : Type}.
Implicit Types (g : gens D) (o : opts D).

Definition in_range_int (z : Z) : Prop := (- 2147483648 <= z <= 2147483647)%Z.
Lemma in_int_true z : in_range_int z -> in_int z = true.
Proof. intros [H1 H2]. unfold in_int, int_min, int_max. apply andb_true_iff. split; apply Z.leb_le; lia. Qed.
Lemma nat_of_ok z : (0 <= z)%Z -> nat_of z = Ok (Z.to_nat z).
Proof. intros H. unfold nat_of. apply Z.leb_le in H. now rewrite H. Qed.

(** knapsack *)
Lemma r_indep g d bits (A : zmat) :
  (forall i j, i < d + 1 -> j < d -> A i j = if i =? 0 then draw g 0 j 0 bits else if i =? S j then 1%Z else 0%Z)%nat ->
  independent (d + 1) d A.
Proof.
  intros H c Hc j Hj. specialize (Hc (S j) ltac:(lia)). rewrite (sumZ_single d j) in Hc; [|exact Hj|].
  - rewrite H in Hc by lia. cbn [Nat.eqb] in Hc. rewrite Nat.eqb_refl in Hc. lia.
  - intros l Hl Hlj. rewrite H by lia. cbn [Nat.eqb]. destruct (Nat.eqb_spec j l); [lia|]. lia.
Qed.
End Generators.

Theorem C71_knapsack :
  forall (D : Type) (g : gens D) o input, o_type o = "r" -> (0 <= o_d o < 2147483647)%Z -> (0 <= o_bits o)%Z ->
    let d := Z.to_nat (o_d o) in
    exists A, generate g o input = Ok (A, d + 1, d)%nat /\
      (forall j, j < d -> ent A 0 j = draw g 0 j 0 (o_bits o)) /\
      (forall i j, i < d -> j < d -> ent A (S i) j = mid i j) /\ independent (d + 1) d (ent A).
Proof.
  intros D g o input HT HD HB d. unfold generate. rewrite HT. cbn [String.eqb Ascii.eqb Bool.eqb].
  rewrite nat_of_ok by lia. cbn [bind]. fold d. rewrite in_int_true by (unfold in_range_int; lia). cbn [guard].
  destruct (gen_r_is g (o_bits o) d HB) as (A & E & (W & D1 & D2 & Q)). rewrite E. cbn [bind]. exists A.
  split; [reflexivity|]. split; [|split].
  - intros j Hj. rewrite Q by lia. reflexivity.
  - intros i j Hi Hj. rewrite Q by lia. cbn [Nat.eqb]. unfold mid. reflexivity.
  - eapply r_indep. exact Q.
Qed.

(** block knapsack: independent exactly when the drawn m x m block is *)
Theorem C71_block_knapsack :
  forall (D : Type) (g : gens D) o input, o_type o = "rb" -> (0 <= o_d o)%Z -> (0 <= o_bits o)%Z ->
    let d := Z.to_nat (o_d o) in let m := Z.to_nat (o_m o) in
    ((0 <= o_m o <= o_d o)%Z ->
     exists A, generate g o input = Ok (A, d, d) /\
      (forall i j, i < m -> j < d -> ent A i j = draw g 0 i j (o_bits o)) /\
      (forall i j, m <= i < d -> j < d -> ent A i j = mid i j) /\
      (independent d d (ent A) <-> independent m m (fun i j => draw g 0 i j (o_bits o)))) /\
    ((o_m o < 0)%Z \/ (0 < o_d o < o_m o)%Z -> generate g o input = UB).
Proof.
  intros D g o input HT HD HB d m. unfold generate. rewrite HT. cbn [String.eqb Ascii.eqb Bool.eqb].
  rewrite nat_of_ok by lia. cbn [bind]. fold d. split.
  - intros HM. rewrite nat_of_ok by lia. cbn [bind]. fold m.
    destruct (gen_rb_is g (o_bits o) d m HB ltac:(unfold m, d; lia)) as (A & E & (W & D1 & D2 & Q)). rewrite E. cbn [bind]. exists A.
    assert (MD : m <= d) by (unfold m, d; lia).
    assert (Q1 : forall i j, i < m -> j < d -> ent A i j = draw g 0 i j (o_bits o)).
    { intros i j Hi Hj. rewrite Q by lia. apply Nat.ltb_lt in Hi. now rewrite Hi. }
    assert (Q2 : forall i j, m <= i < d -> j < d -> ent A i j = mid i j).
    { intros i j Hi Hj. rewrite Q by lia. destruct (Nat.ltb_spec i m); [lia|]. reflexivity. }
    split; [reflexivity|]. split; [exact Q1|]. split; [exact Q2|]. split; intros HI c Hc j Hj.
    + set (c' := fun j => if j <? m then c j else 0%Z).
      assert (K : forall i, i < d -> sumZ d (fun j => (ent A i j * c' j)%Z) = 0%Z).
      { intros i Hi. destruct (Nat.lt_ge_cases i m).
        - replace (sumZ d) with (sumZ (m + (d - m))) by (f_equal; lia). rewrite sumZ_split.
          rewrite (sumZ_0 (d - m)) by (intros l Hl; unfold c'; destruct (Nat.ltb_spec (m + l) m); lia). rewrite Z.add_0_r.
          rewrite <- (Hc i H). apply sumZ_ext. intros l Hl. rewrite Q1 by lia. unfold c'. destruct (Nat.ltb_spec l m); [reflexivity|lia].
        - rewrite (sumZ_single d i); [|exact Hi|].
          + unfold c'. destruct (Nat.ltb_spec i m); lia.
          + intros l Hl Hne. rewrite Q2 by lia. unfold mid. destruct (Nat.eqb_spec i l); lia. }
      specialize (HI c' K j ltac:(lia)). unfold c' in HI. destruct (Nat.ltb_spec j m); [exact HI|lia].
    + assert (Z2 : forall i, m <= i < d -> c i = 0%Z).
      { intros i Hi. specialize (Hc i ltac:(lia)). rewrite (sumZ_single d i) in Hc; [|lia|].
        - rewrite Q2 in Hc by lia. unfold mid in Hc. rewrite Nat.eqb_refl in Hc. lia.
        - intros l Hl Hne. rewrite Q2 by lia. unfold mid. destruct (Nat.eqb_spec i l); lia. }
      destruct (Nat.lt_ge_cases j m) as [Hjm|Hjm]; [|apply Z2; lia].
      apply (HI c); [|exact Hjm]. intros i Hi. rewrite <- (Hc i ltac:(lia)).
      replace (sumZ d) with (sumZ (m + (d - m))) by (f_equal; lia). rewrite sumZ_split.
      rewrite (sumZ_0 (d - m)) by (intros l Hl; rewrite Z2 by lia; lia). rewrite Z.add_0_r.
      apply sumZ_ext. intros l Hl. now rewrite Q1 by lia.
  - intros HM. destruct (Z.leb_spec 0 (o_m o)) as [H0|H0].
    + rewrite nat_of_ok by lia. cbn [bind]. fold m. assert (MD : d < m /\ 0 < d) by (unfold m, d; lia).
      unfold gen_rb. unfold rand_rows. rewrite Nat.sub_0_r.
      replace m with (d + S (m - d - 1)) by lia. rewrite seq_app, mfold_app.
      destruct (rand_rows_is g 0 0 d d (o_bits o) _ d d _ (is_resize0 d d) ltac:(lia) ltac:(lia) HB) as (M & E & (W & D1 & D2 & _)).
      unfold rand_rows in E. rewrite Nat.sub_0_r in E. rewrite E. cbn [bind seq mfold Nat.add].
      unfold for_ at 1. destruct d as [|d']; [lia|]. cbn [seq mfold]. rewrite randb_ok by assumption. cbn [bind].
      unfold gset at 1. rewrite D1, Nat.ltb_irrefl. reflexivity.
    + unfold nat_of. destruct (Z.leb_spec 0 (o_m o)); [lia|]. reflexivity.
Qed.

(** rectangular uniform: every entry drawn; with fewer rows than columns (as with the default -m 1 and -d 8) the columns
    are dependent whatever is drawn *)
Theorem C71_uniform :
  forall (D : Type) (g : gens D) o input, o_type o = "u" -> (0 <= o_d o)%Z -> (0 <= o_m o)%Z -> (0 <= o_bits o)%Z ->
    let d := Z.to_nat (o_d o) in let n := Z.to_nat (o_m o) in
    exists A, generate g o input = Ok (A, n, d) /\
      (forall i j, i < n -> j < d -> ent A i j = draw g 0 i j (o_bits o)) /\
      ((o_m o < o_d o)%Z -> ~ independent n d (ent A)).
Proof.
  intros D g o input HT HD HM HB d n. unfold generate. rewrite HT. cbn [String.eqb Ascii.eqb Bool.eqb].
  rewrite !nat_of_ok by lia. cbn [bind]. fold d n.
  destruct (gen_u_is g (o_bits o) d n HB) as (A & E & (W & D1 & D2 & Q)). rewrite E. cbn [bind]. exists A.
  split; [reflexivity|]. split; [exact Q|]. intros H HI.
  destruct (dependent n d (ent A) ltac:(unfold n, d; lia)) as (c & (j & Hj & Nz) & Hc). apply Nz. now apply HI.
Qed.

(** upper part shifted: the first m rows have more bits; without any (m <= 0) the first row is zero and the columns are dependent *)
Theorem C71_shifted :
  forall (D : Type) (g : gens D) o input, o_type o = "dec" -> (0 <= o_d o)%Z -> (0 <= o_bits o)%Z -> (0 <= o_bits o + o_shift o)%Z ->
    let d := Z.to_nat (o_d o) in
    ((o_m o <= o_d o)%Z ->
     exists A, generate g o input = Ok (A, d, d) /\
      (forall i j, i < d -> j < d -> (Z.of_nat i < o_m o)%Z -> ent A i j = draw g 1 i j (o_bits o + o_shift o)) /\
      (forall i j, 1 <= i < d -> j < d -> (o_m o <= Z.of_nat i)%Z -> ent A i j = draw g 0 i j (o_bits o)) /\
      ((o_m o <= 0)%Z -> 1 <= d -> ~ independent d d (ent A))) /\
    ((0 < o_d o < o_m o)%Z -> generate g o input = UB).
Proof.
  intros D g o input HT HD HB HS d. unfold generate. rewrite HT. cbn [String.eqb Ascii.eqb Bool.eqb].
  rewrite nat_of_ok by lia. cbn [bind]. fold d. split.
  - intros HM. destruct (gen_dec_is g (o_bits o) (o_shift o) d (Z.to_nat (o_m o)) HB HS ltac:(unfold d; lia)) as (A & E & (W & D1 & D2 & Q)).
    rewrite E. cbn [bind]. exists A. split; [reflexivity|]. split; [|split].
    + intros i j Hi Hj Hm. rewrite Q by lia. destruct (Nat.ltb_spec i (Z.to_nat (o_m o))); [reflexivity|lia].
    + intros i j Hi Hj Hm. rewrite Q by lia. destruct (Nat.ltb_spec i (Z.to_nat (o_m o))); [lia|].
      destruct (Nat.eqb_spec i 0); [lia|reflexivity].
    + intros Hm Hd HI. destruct (dependent (d - 1) d (fun i => ent A (S i)) ltac:(lia)) as (c & (j & Hj & Nz) & Hc).
      apply Nz. apply (HI c); [|exact Hj]. intros i Hi. destruct i as [|i].
      * apply sumZ_0. intros l Hl. rewrite Q by lia. destruct (Nat.ltb_spec 0 (Z.to_nat (o_m o))); [lia|]. cbn [Nat.eqb]. lia.
      * apply Hc. lia.
  - intros HM. set (m := Z.to_nat (o_m o)). assert (MD : d < m /\ 0 < d) by (unfold m, d; lia).
    unfold gen_dec.
    destruct (rand_rows_is g 0 1 d d (o_bits o) _ d d _ (is_resize0 d d) ltac:(lia) ltac:(lia) HB) as (M0 & E0 & Q0). rewrite E0. cbn [bind].
    unfold rand_rows. rewrite Nat.sub_0_r.
    replace m with (d + S (m - d - 1)) by lia. rewrite seq_app, mfold_app.
    destruct (rand_rows_is g 1 0 d d (o_bits o + o_shift o) M0 d d _ Q0 ltac:(lia) ltac:(lia) HS) as (M & E & (W & D1 & D2 & _)).
    unfold rand_rows in E. rewrite Nat.sub_0_r in E. rewrite E. cbn [bind seq mfold Nat.add].
    unfold for_ at 1. destruct d as [|d']; [lia|]. cbn [seq mfold]. rewrite randb_ok by assumption. cbn [bind].
    unfold gset at 1. rewrite D1, Nat.ltb_irrefl. reflexivity.
Qed.

(** Coppersmith: triangular with diagonal N^(h-1-floor(i/3)) X^i; independent exactly when the numbers drawn for X, and N
    if it is used, are not zero *)
Theorem C71_coppersmith :
  forall (D : Type) (g : gens D) o input, o_type o = "c" -> (0 <= o_h o <= 715827882)%Z -> (0 <= o_N o)%Z -> (0 <= o_X o)%Z ->
    let h := Z.to_nat (o_h o) in let N := draw g 0 0 0 (o_N o) in let X := draw g 1 0 0 (o_X o) in
    exists A, generate g o input = Ok (A, 3 * h, 3 * h) /\
      (forall i j, i < 3 * h -> j < i -> ent A i j = 0%Z) /\
      (forall i, i < 3 * h -> ent A i i = (N ^ Z.of_nat (h - 1 - i / 3) * X ^ Z.of_nat i)%Z) /\
      (1 <= h -> independent (3 * h) (3 * h) (ent A) <-> X <> 0%Z /\ (2 <= h -> N <> 0%Z)).
Proof.
  intros D g o input HT HH HN HX h N X. unfold generate. rewrite HT. cbn [String.eqb Ascii.eqb Bool.eqb].
  rewrite nat_of_ok by lia. cbn [bind]. fold h. rewrite in_int_true by (unfold in_range_int; lia). cbn [guard].
  destruct (gen_c_is g h (o_N o) (o_X o) HN HX) as (A & E & (W & D1 & D2 & Q)). fold N X in Q. rewrite E. cbn [bind]. exists A.
  assert (Q1 : forall i j, i < 3 * h -> j < i -> ent A i j = 0%Z).
  { intros i j Hi Hj. rewrite Q by lia. destruct (Nat.ltb_spec i j); [lia|]. destruct (Nat.eqb_spec i j); [lia|reflexivity]. }
  assert (Q2 : forall i, i < 3 * h -> ent A i i = copp_diag h N X i).
  { intros i Hi. rewrite Q by lia. rewrite Nat.ltb_irrefl, Nat.eqb_refl. reflexivity. }
  split; [reflexivity|]. split; [exact Q1|]. split; [exact Q2|]. intros H1. split.
  - intros HI. split.
    + intros E0. apply (triangular_dep (3 * h) (ent A) 1); [lia| | |exact HI]; [intros; apply Q1; lia|].
      rewrite Q2 by lia. unfold copp_diag. rewrite E0. change (0 ^ Z.of_nat 1)%Z with 0%Z. lia.
    + intros H2 E0. apply (triangular_dep (3 * h) (ent A) 0); [lia| | |exact HI]; [intros; apply Q1; lia|].
      rewrite Q2 by lia. unfold copp_diag. rewrite E0, Z.pow_0_l; [lia|]. change (0 / 3) with 0. lia.
  - intros (HX0 & HN0). apply triangular_indep; [lia|intros; apply Q1; lia|]. intros j Hj. rewrite Q2 by assumption. unfold copp_diag.
    assert (P1 : (X ^ Z.of_nat j)%Z <> 0%Z) by (apply Z.pow_nonzero; lia).
    assert (P2 : (N ^ Z.of_nat (h - 1 - j / 3))%Z <> 0%Z).
    { destruct (Nat.eq_dec (h - 1 - j / 3) 0) as [->|Hne]; [discriminate|]. apply Z.pow_nonzero; [|lia].
      apply HN0. lia. }
    nia.
Qed.

(** alpha: triangular, the i-th diagonal entry comes from the power d-i of alpha *)
Theorem C71_alpha :
  forall (D : Type) (g : gens D) o input, o_type o = "al" -> (0 <= o_d o)%Z ->
    let d := Z.to_nat (o_d o) in
    exists A, generate g o input = Ok (A, d, d) /\
      (forall i j, i < d -> j < i -> ent A i j = 0%Z) /\
      (forall i, i < d -> ent A i i = al_diag g (o_alpha o) (d - i)) /\
      (independent d d (ent A) <-> forall k, 1 <= k <= d -> al_diag g (o_alpha o) k <> 0%Z).
Proof.
  intros D g o input HT HD d. unfold generate. rewrite HT. cbn [String.eqb Ascii.eqb Bool.eqb orb].
  rewrite nat_of_ok by lia. cbn [bind]. fold d.
  destruct (gen_al_is g d (o_alpha o)) as (A & E & (W & D1 & D2 & Q)). rewrite E. cbn [bind]. exists A.
  assert (Q1 : forall i j, i < d -> j < i -> ent A i j = 0%Z).
  { intros i j Hi Hj. rewrite Q by lia. destruct (Nat.eqb_spec i j); [lia|]. destruct (Nat.ltb_spec i j); [lia|reflexivity]. }
  assert (Q2 : forall i, i < d -> ent A i i = al_diag g (o_alpha o) (d - i)).
  { intros i Hi. rewrite Q by lia. rewrite Nat.eqb_refl. reflexivity. }
  split; [reflexivity|]. split; [exact Q1|]. split; [exact Q2|]. split.
  - intros HI k Hk E0. apply (triangular_dep d (ent A) (d - k)); [lia| | |exact HI]; [intros; apply Q1; lia|].
    rewrite Q2 by lia. now replace (d - (d - k)) with k by lia.
  - intros H. apply triangular_indep; [lia|intros; apply Q1; lia|]. intros j Hj. rewrite Q2 by assumption. apply H. lia.
Qed.

(** read from the standard input: the columns of the basis are the rows read *)
Theorem C71_read :
  forall (D : Type) (g : gens D) o input, o_type o = "cin" -> dwf input ->
    exists A, generate g o input = Ok (A, dc input, dr input) /\ forall i j, i < dc input -> j < dr input -> ent A i j = ent input j i.
Proof.
  intros D g o input HT W. unfold generate. rewrite HT. cbn [String.eqb Ascii.eqb Bool.eqb orb].
  destruct (transpose_is input (dr input) (dc input) (ent input)) as (B & EB & (_ & _ & _ & QB)).
  { split; [exact W|]. split; [reflexivity|]. split; [reflexivity|]. auto. }
  rewrite EB. cbn [bind]. eauto.
Qed.

(** any other word leaves the number of rows uninitialised *)
Theorem C71_unknown_type :
  forall (D : Type) (g : gens D) o input,
    ~ In (o_type o) ["r"; "rb"; "u"; "dec"; "t"; "c"; "n"; "nq"; "N"; "Nq"; "al"; "cin"] -> generate g o input = UB.
Proof.
  intros D g o input H. unfold generate.
  repeat match goal with |- context [String.eqb (o_type o) ?b] => destruct (String.eqb_spec (o_type o) b) as [E|_]; [exfalso; apply H; rewrite E; cbn; tauto|] end.
  reflexivity.
Qed.

(** the program without arguments: whatever is drawn and whatever the uninitialised variables hold, it gets a 9 x 8
    knapsack basis with independent columns *)
Theorem C71_no_arguments :
  forall (D : Type) (e : env D) (g : gens D) input,
    exists A, command_line_basis e g [] input = Ok (A, 9, 8, d_delta e) /\ independent 9 8 (ent A).
Proof.
  intros D e g input. destruct (C71_knapsack D g (defaults e) input eq_refl ltac:(cbn; lia) ltac:(cbn; lia)) as (A & E & _ & _ & HI).
  exists A. split; [|exact HI]. unfold command_line_basis. cbn [parse bind]. rewrite E. reflexivity.
Qed.

(** ** concrete command lines *)
Definition ex_env_z : env Z := mkE (fun _ => None) 99%Z 140%Z 0%Z 0%Z 0%Z 0%Z.
Definition ex_gens_z : gens Z := mkG (fun p i j b => Z.of_nat (7 * i + 3 * j + 5 * p + 1) mod 2 ^ b)%Z
  (fun _ _ _ _ => 0%Z) (fun _ _ _ _ _ => 0%Z) (fun _ k => Z.of_nat k) (fun r t => r)%Z.
Definition ex_args (ty : string) : list string := ["-type"; ty; "-d"; "3"; "x"; "-m"; " 2"; "-h"; "+1"; "-N"; "5"; "-X"; "4"; "-d"; "4"].
Example C71_cases :
  exists o, parse ex_env_z (ex_args "rb") (defaults ex_env_z) = Ok o /\ o_type o = "rb" /\ o_d o = 4%Z /\ o_m o = 2%Z /\ o_h o = 1%Z /\    o_N o = 5%Z /\ o_X o = 4%Z /\ o_bits o = 10%Z.
Proof. eexists. split; [vm_compute; reflexivity|]. repeat split. Qed.
Example C71_case_rb : exists A, command_line_basis ex_env_z ex_gens_z (ex_args "rb") rows_s = Ok (A, 4, 4, d_delta ex_env_z) /\  de A = [[1;8;0;0];[4;11;0;0];[7;14;1;0];[10;17;0;1]]%Z.
Proof. eexists. split; vm_compute; reflexivity. Qed.
Example C71_case_dec : exists A, command_line_basis ex_env_z ex_gens_z (ex_args "dec") rows_s = Ok (A, 4, 4, d_delta ex_env_z) /\  de A = [[6;13;15;22];[9;16;18;25];[12;19;21;28];[15;22;24;31]]%Z.
Proof. eexists. split; vm_compute; reflexivity. Qed.
Example C71_case_c : exists A, command_line_basis ex_env_z ex_gens_z (ex_args "c") rows_s = Ok (A, 3, 3, d_delta ex_env_z) /\  de A = [[1;0;0];[14;6;0];[17;24;36]]%Z.
Proof. eexists. split; vm_compute; reflexivity. Qed.
Example C71_case_u : exists A, command_line_basis ex_env_z ex_gens_z (ex_args "u") rows_s = Ok (A, 2, 4, d_delta ex_env_z) /\  de A = [[1;8];[4;11];[7;14];[10;17]]%Z.
Proof. eexists. split; vm_compute; reflexivity. Qed.
Example C71_case_al : exists A, command_line_basis ex_env_z ex_gens_z (ex_args "al") rows_s = Ok (A, 4, 4, d_delta ex_env_z) /\  de A = [[4;0;0;0];[4;3;0;0];[7;14;2;0];[10;17;24;1]]%Z.
Proof. eexists. split; vm_compute; reflexivity. Qed.
Example C71_case_missing : parse ex_env_z ["-type"; "cin"; "-d"] (defaults ex_env_z) = UB /\ parse ex_env_z ["-type"; "abcdefgh"] (defaults ex_env_z) = UB.
Proof. split; vm_compute; reflexivity. Qed.

Print Assumptions C71_knapsack.
Print Assumptions C71_block_knapsack.
Print Assumptions C71_uniform.
Print Assumptions C71_shifted.
Print Assumptions C71_coppersmith.
Print Assumptions C71_alpha.
Print Assumptions C71_read.
Print Assumptions C71_unknown_type.
Print Assumptions C71_no_arguments.
