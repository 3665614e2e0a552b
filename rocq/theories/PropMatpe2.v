(** * C66: what the operations of MatrixPE (matpe.h) compute *)
From Coq Require Import ZArith Reals Lia Lra List Bool Arith Floats.SpecFloat.
From Flocq Require Import Core.Core IEEE754.BinarySingleNaN.
From Verif Require Import Base Mat Ldpe LdpeFacts Matpe MatpeFacts SpecReal.
Import ListNotations.
Open Scope R_scope.

(** Vocabulary of the statements (all definitions in MatpeFacts.v and LdpeFacts.v):
    [pv A i j]: the real number M[j][i] * 2^exp[j]; [val x]: the real number mant * 2^exp;
    [finp A j i]: the mantissa M[j][i] is neither infinite nor NaN;
    [uro prec] = 2^-prec, [eta] = half the smallest positive mantissa (2^-1075 for double);
    [same_else A A' j]: the columns other than j are the same, bit for bit.
    prec = 53, emax = 1024: MatrixPE<double,dpe_t>; prec = 64, emax = 16384:
    MatrixPE<long double,ldpe_t>. *)
Section C66.
Context (prec emax : Z) {Hp : Prec_gt_0 prec} {He : Prec_lt_emax prec emax}.
Context (ofz : Z -> binary_float prec emax * Z) (n d : nat).
Notation T := (binary_float prec emax).
Notation tp := (fl_tops prec emax ofz).
Notation u := (uro prec).
Notation eta := (eta prec emax).
Notation val := (val prec emax).
Notation pv := (pv prec emax ofz).
Notation finp := (finp prec emax ofz).
Notation wfp := (wfp prec emax n d).
Notation same_else := (same_else prec emax ofz).
Notation rowm A j i := (row tp A j i).
Notation two e := (bpow radix2 e).

Theorem C66_get : (2 * prec + 2 <= emax)%Z -> forall A i j x,
  pe_get tp n d A i j = Ok x -> finp A j i -> val x = pv A i j /\ normal prec emax x.
Proof using Type. intros Hb A i j x. now apply get_spec. Qed.
Theorem C66_get_non_normalized : forall A i j x,
  pe_getnn tp n d A i j = Ok x -> val x = pv A i j.
Proof using Type. intros A i j x. apply getnn_spec. Qed.

(** set(i,j,x): the entry and the rest of its column, up to the smallest mantissa *)
Theorem C66_set : forall A i j x A', pe_set tp n d i j x A = Ok A' -> wfp A ->
  is_finite (mant x) = true -> (forall k, (k < n)%nat -> finp A j k) ->
  wfp A' /\ same_else A A' j /\
  ex A' j = (if Req_EM_T (B2R (mant x)) 0 then ex A j else Z.max (expn x) (ex A j)) /\
  forall k, (k < n)%nat -> finp A' j k /\
    Rabs (pv A' k j - (if (k =? i)%nat then val x else pv A k j)) <= eta * two (ex A' j).
Proof using Type. intros A i j x A'. apply set_spec. Qed.
Theorem C66_set_zero : forall A i j A', pe_set0 tp n d i j A = Ok A' -> wfp A ->
  wfp A' /\ same_else A A' j /\
  forall k, (k < n)%nat -> pv A' k j = if (k =? i)%nat then 0 else pv A k j.
Proof using Type. intros A i j A' H W. destruct (set0_spec _ _ _ _ _ _ _ _ _ H W) as (H1 & H2 & _ & H3). split; [|split]; auto. intros k Hk. now apply H3. Qed.

(** setcol from integers: relative error 2^(1-prec) plus the smallest mantissa *)
Theorem C66_setcol_integers : ofz_ok prec emax ofz -> forall A j b l A',
  pe_setcolz tp n d j b l A = Ok A' -> wfp A -> l <> 0%nat ->
  wfp A' /\ same_else A A' j /\ (l <= n)%nat /\
  (ex A' j = INT_MIN \/ exists i, (i < l)%nat /\ two (ex A' j) <= 4 * (1 + Rabs (IZR (nth i b 0%Z)))) /\
  (forall i, (i < l)%nat -> finp A' j i /\
     Rabs (pv A' i j - IZR (nth i b 0%Z)) <= two (1 - prec) * Rabs (IZR (nth i b 0%Z)) + eta * two (ex A' j)) /\
  (forall i, (l <= i < n)%nat -> rowm A' j i = rowm A j i).
Proof using Type. intros OK A j b l A'. now apply setcolz_spec. Qed.

(** setcol from numbers *)
Theorem C66_setcol_numbers : forall A j t l A' x0,
  pe_setcolf tp n d j t l A = Ok A' -> wfp A -> l <> 0%nat ->
  wfp A' /\ same_else A A' j /\ (l <= n)%nat /\
  (ex A' j = INT_MIN \/ exists i, (i < l)%nat /\ ex A' j = expn (nth i t x0)) /\
  (forall i, (i < l)%nat -> (expn (nth i t x0) <= ex A' j)%Z /\
     (is_finite (mant (nth i t x0)) = true -> finp A' j i /\ Rabs (pv A' i j - val (nth i t x0)) <= eta * two (ex A' j))) /\
  (forall i, (l <= i < n)%nat -> rowm A' j i = rowm A j i).
Proof using Type. intros A j t l A' x0. apply setcolf_spec. Qed.

(** copies and exchanges of columns are exact *)
Theorem C66_setcol_copy : forall A j W jw l A', pe_copycol tp n d j W jw l A = Ok A' -> wfp A -> l <> 0%nat ->
  wfp A' /\ same_else A A' j /\
  (forall i, (i < l)%nat -> pv A' i j = pv W i jw).
Proof using Type. intros A j W jw l A' H W1 Hl. destruct (copycol_spec _ _ _ _ _ _ _ _ _ _ _ H W1 Hl) as (H1 & H2 & _ & H3 & _). split; [|split]; auto. intros i Hi. now apply H3. Qed.
Theorem C66_colswap : forall A j k A', pe_colswap d j k A = Ok A' -> wfp A ->
  wfp A' /\ forall c, (c < d)%nat -> let c' := if (c =? j)%nat then k else if (c =? k)%nat then j else c in
    ex A' c = ex A c' /\ forall i, rowm A' c i = rowm A c' i.
Proof using Type. intros A j k A'. apply colswap_spec. Qed.

Theorem C66_addcol : forall A j k l A', pe_addcol tp n d j k l A = Ok A' -> wfp A -> l <> 0%nat ->
  wfp A' /\ same_else A A' j /\ ex A' j = Z.max (ex A j) (ex A k) /\ (l <= n)%nat /\
  (forall i, (i < l)%nat -> finp A' j i ->
     Rabs (pv A' i j - (pv A i j + pv A i k)) <= u * Rabs (pv A i j + pv A i k) + 2 * eta * two (ex A' j)) /\
  (forall i, (l <= i < n)%nat -> rowm A' j i = rowm A j i).
Proof using Type.
  intros A j k l A'. apply addsub_spec with (g := Rplus).
  - intros x y X Y a b. apply plus_near. - intros x y. apply plus_fin. - intros. ring.
Qed.
Theorem C66_subcol : forall A j k l A', pe_subcol tp n d j k l A = Ok A' -> wfp A -> l <> 0%nat ->
  wfp A' /\ same_else A A' j /\ ex A' j = Z.max (ex A j) (ex A k) /\ (l <= n)%nat /\
  (forall i, (i < l)%nat -> finp A' j i ->
     Rabs (pv A' i j - (pv A i j - pv A i k)) <= u * Rabs (pv A i j - pv A i k) + 2 * eta * two (ex A' j)) /\
  (forall i, (l <= i < n)%nat -> rowm A' j i = rowm A j i).
Proof using Type.
  intros A j k l A'. apply addsub_spec with (g := Rminus).
  - intros x y X Y a b. apply minus_near. - intros x y. apply minus_fin. - intros. ring.
Qed.
Theorem C66_submulcol : forall A j k a l A', pe_submulcol tp n d j k a l A = Ok A' -> wfp A -> l <> 0%nat ->
  wfp A' /\ same_else A A' j /\ ex A' j = Z.max (ex A j) (expn a + ex A k) /\ (l <= n)%nat /\
  (forall i, (i < l)%nat -> finp A' j i -> is_finite (mant a) = true ->
     Rabs (pv A' i j - (pv A i j - val a * pv A i k))
     <= 3 * u * (Rabs (pv A i j) + Rabs (val a * pv A i k))
        + 3 * eta * (1 + Rabs (B2R (rowm A j i)) + Rabs (B2R (rowm A k i))) * two (ex A' j)) /\
  (forall i, (l <= i < n)%nat -> rowm A' j i = rowm A j i).
Proof using Type. intros A j k a l A'. apply submulcol_spec. Qed.
Theorem C66_fmasub : forall A j k Wm jw kw Zm jz kz a l A',
  pe_fmasub tp n d j k Wm jw kw Zm jz kz a l A = Ok A' -> wfp A -> l <> 0%nat -> is_finite (mant a) = true ->
  wfp A' /\ same_else A A' j /\ (k + l <= n)%nat /\
  ex A' j = (if Req_EM_T (B2R (mant a)) 0 then ex Wm jw else Z.max (ex Wm jw) (expn a + ex Zm jz)) /\
  (forall i, (i < l)%nat -> finp A' j (k + i) ->
     let w := pv Wm (kw + i) jw in let z := pv Zm (kz + i) jz in
     Rabs (pv A' (k + i) j - (w - val a * z))
     <= 3 * u * (Rabs w + Rabs (val a * z))
        + 3 * eta * (1 + Rabs (B2R (rowm Wm jw (kw + i))) + Rabs (B2R (rowm Zm jz (kz + i)))) * two (ex A' j)) /\
  (forall i, (k + l <= i < n)%nat -> rowm A' j i = rowm A j i).
Proof using Type. intros A j k Wm jw kw Zm jz kz a l A'. apply fmasub_spec. Qed.
Theorem C66_div : forall A j k Wm jw kw a len A',
  pe_div tp n d j k Wm jw kw a len A = Ok A' -> wfp A -> (0 < len)%Z -> is_finite (mant a) = true ->
  wfp A' /\ same_else A A' j /\ ex A' j = (ex Wm jw - expn a)%Z /\ (k + Z.to_nat len <= n)%nat /\
  (forall i, (i < Z.to_nat len)%nat -> finp A' j (k + i) ->
     val a <> 0 /\
     Rabs (pv A' (k + i) j - pv Wm (kw + i) jw / val a)
     <= 3 * u * Rabs (pv Wm (kw + i) jw / val a)
        + 2 * eta * (1 + Rabs (B2R (rowm Wm jw (kw + i)))) * two (ex A' j)) /\
  (forall i, (i < k)%nat \/ (k + Z.to_nat len <= i < n)%nat -> rowm A' j i = rowm A j i).
Proof using Type. intros A j k Wm jw kw a len A'. apply div_spec. Qed.
Theorem C66_scalarprod : (2 * prec + 2 <= emax)%Z -> forall V jv kv Wm jw kw len old x,
  pe_dot tp n d V jv kv Wm jw kw len old = Ok x -> (0 < len)%Z -> is_finite (mant x) = true ->
  let l := Z.to_nat len in
  let p i := pv V (kv + i) jv * pv Wm (kw + i) jw in
  normal prec emax x /\
  Rabs (val x - sumR l p)
  <= ((1 + u) ^ (l + 1) - 1) * sumR l (fun i => Rabs (p i))
     + INR l * (1 + u) ^ (l + 1) * eta * two (ex V jv + ex Wm jw).
Proof using Type. intros Hb V jv kv Wm jw kw len old x. now apply dot_spec. Qed.
Theorem C66_norm_sq : (2 * prec + 2 <= emax)%Z -> forall V jv kv len old x,
  pe_norm2 tp n d V jv kv len old = Ok x -> (0 < len)%Z -> is_finite (mant x) = true ->
  let l := Z.to_nat len in
  let p i := pv V (kv + i) jv * pv V (kv + i) jv in
  normal prec emax x /\
  Rabs (val x - sumR l p)
  <= ((1 + u) ^ l - 1) * sumR l p + INR l * (1 + u) ^ l * eta * two (2 * ex V jv).
Proof using Type. intros Hb V jv kv len old x. now apply norm2_spec. Qed.
Theorem C66_norm : (2 * prec + 2 <= emax)%Z -> forall V jv kv len old x,
  pe_norm tp n d V jv kv len old = Ok x -> (0 < len)%Z ->
  exists q, pe_norm2 tp n d V jv kv len old = Ok q /\
    (is_finite (mant q) = true -> 0 < val q -> normal prec emax x /\ Rabs (val x - sqrt (val q)) <= u * sqrt (val q)).
Proof using Type. intros Hb V jv kv len old x. now apply norm_spec. Qed.

(** an operation with length 0 changes nothing *)
Theorem C66_length_zero : forall A j k a b (t : list (ldpe prec emax)) W jw kw Zm jz kz,
  pe_setcolz tp n d j b 0 A = Ok A /\ pe_setcolf tp n d j t 0 A = Ok A /\ pe_copycol tp n d j W jw 0 A = Ok A /\
  pe_addcol tp n d j k 0 A = Ok A /\ pe_subcol tp n d j k 0 A = Ok A /\ pe_submulcol tp n d j k a 0 A = Ok A /\
  (forall A', pe_fmasub tp n d j k W jw kw Zm jz kz a 0 A = Ok A' -> A' = A) /\
  (forall A', pe_div tp n d j k W jw kw a 0 A = Ok A' -> A' = A).
Proof using Type.
  intros. repeat split; intros A' H.
  - unfold pe_fmasub in H. apply guard_Ok in H as [_ H]. cbn [Nat.eqb] in H. now injection H as <-.
  - unfold pe_div in H. apply guard_Ok in H as [_ H]. cbn [Z.eqb] in H. now injection H as <-.
Qed.
End C66.

(** the two classes satisfy the side conditions *)
Theorem C66_classes :
  (2 * 53 + 2 <= 1024)%Z /\ ofz_ok 53 1024 get_d_2exp /\ (2 * 64 + 2 <= 16384)%Z /\ ofz_ok 64 16384 ofz_ld.
Proof. split; [lia|]. split; [exact dpe_ofz_ok|]. split; [lia|exact ldpe_ofz_ok]. Qed.

(** a run with finite mantissas: columns (3,2^70) and (5,7); then column 0 minus 0.75 times
    column 1; scalar product and norm *)
Definition ok_fin (r : res (pe (binary_float 53 1024))) : bool :=
  match r with
  | Ok A => forallb (fun j => forallb (fun i => is_finite (row dpe_tops A j i)) (seq 0 2)) (seq 0 2)
  | _ => false
  end.
Definition okd (r : res dpe_t) : bool := match r with Ok x => is_finite (mant x) | _ => false end.
Definition mat1 : res (pe (binary_float 53 1024)) :=
  let* A := pe_setcolz dpe_tops 2 2 0 [3; 2 ^ 70]%Z 2 (pe_zero dpe_tops 2 2) in
  pe_setcolz dpe_tops 2 2 1 [5; 7]%Z 2 A.
Definition c75 : dpe_t := cst 53 1024 3 (-2).
Example C66_ex :
  wfp 53 1024 2 2 (pe_zero dpe_tops 2 2) /\
  ok_fin mat1 = true /\
  ok_fin (let* A := mat1 in pe_submulcol dpe_tops 2 2 0 1 c75 2 A) = true /\
  ok_fin (let* A := mat1 in pe_fmasub dpe_tops 2 2 0 0 A 0 0 A 1 0 c75 2 A) = true /\
  ok_fin (let* A := mat1 in pe_div dpe_tops 2 2 0 0 A 1 0 c75 2 A) = true /\
  ok_fin (let* A := mat1 in pe_subcol dpe_tops 2 2 0 1 2 A) = true /\
  ok_fin (let* A := mat1 in pe_addcol dpe_tops 2 2 0 1 2 A) = true /\
  ok_fin (let* A := mat1 in pe_set dpe_tops 2 2 0 0 c75 A) = true /\
  ok_fin (let* A := mat1 in pe_setcolf dpe_tops 2 2 0 [c75; c75] 2 A) = true /\
  okd (let* A := mat1 in pe_get dpe_tops 2 2 A 0 1) = true /\
  okd (let* A := mat1 in pe_dot dpe_tops 2 2 A 0 0 A 1 0 2 c75) = true /\
  okd (let* A := mat1 in pe_norm dpe_tops 2 2 A 0 0 2 c75) = true.
Proof.
  split. { split; [|reflexivity]. split; [reflexivity|]. repeat constructor. }
  repeat split; vm_compute; reflexivity.
Qed.

(** what fails: an operation on the first rows of a column changes the values of the
    other rows of that column (their mantissas stay, the exponent of the column does not) *)
Theorem C66_other_rows_kept_refuted :
  ~ (forall A j k l A', pe_subcol dpe_tops 2 2 j k l A = Ok A' -> wfp 53 1024 2 2 A ->
     forall i, (l <= i < 2)%nat -> pv 53 1024 get_d_2exp A' i j = pv 53 1024 get_d_2exp A i j).
Proof.
  intros H.
  set (one := Bone : binary_float 53 1024).
  set (A := mkPE [[one; one]; [one; one]] [0; 10]%Z).
  assert (E : exists A', pe_subcol dpe_tops 2 2 0 1 1 A = Ok A' /\ row dpe_tops A' 0 1 = one /\ ex A' 0 = 10%Z).
  { eexists. split; [reflexivity|]. split; reflexivity. }
  destruct E as (A' & E & E1 & E2).
  specialize (H A 0%nat 1%nat 1%nat A' E).
  assert (W : wfp 53 1024 2 2 A). { split; [|reflexivity]. split; [reflexivity|]. repeat constructor. }
  specialize (H W 1%nat ltac:(lia)). unfold pv in H.
  change (fl_tops 53 1024 get_d_2exp) with dpe_tops in H. rewrite E1, E2 in H.
  change (row dpe_tops A 0 1) with one in H. change (ex A 0) with 0%Z in H.
  unfold one in H. rewrite Bone_correct in H. cbn in H. lra.
Qed.
