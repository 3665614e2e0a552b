(** * Free functions of src/mat.h on integer matrices

    [Matrix<T>]/[ZZ_mat<T>] and [matrix<T>] with their dimensions.  Entries are
    unbounded integers (mpz_t); machine-integer entries are treated in Int128.v. *)
From Coq Require Import ZArith Lia List Bool Arith.
From Verif Require Import Base Spec Mat.
Import ListNotations.

(** a matrix object: get_rows()/getRows(), get_cols()/getCols(), entries *)
Record dmat := mkD { dr : nat; dc : nat; de : mat Z }.
Definition dwf (M : dmat) : Prop := wfm (dr M) (dc M) (de M).
Definition ent (M : dmat) : zmat := fn (de M).

(** element access with its precondition *)
Definition gget (M : dmat) (i j : nat) : res Z :=
  guard ((i <? dr M) && (j <? dc M)) (Ok (mget 0%Z (de M) i j)).
Definition gset (M : dmat) (i j : nat) (x : Z) : res dmat :=
  guard ((i <? dr M) && (j <? dc M)) (Ok (mkD (dr M) (dc M) (mset (de M) i j x))).

(** resize(m,n) on a fresh object: entries are 0 (mpz_init) *)
Definition resize0 (m n : nat) : dmat := mkD m n (mtab m n (fun _ _ => 0%Z)).

(** for (i = 0; i < n; i++) *)
Definition for_ {S} (n : nat) (body : nat -> S -> res S) (s : S) : res S := mfold body (seq 0 n) s.
(** for (i = 0; i < m; i++) for (j = 0; j < n; j++) *)
Definition for2 {S} (m n : nat) (body : nat -> nat -> S -> res S) (s : S) : res S :=
  for_ m (fun i => for_ n (body i)) s.

(** ** Identity, comparison, copies *)

(** setId, 1084-1102 and 1104-1122 *)
Definition setId (A : dmat) : res dmat :=
  let* A1 := for2 (dr A) (dc A) (fun i j M => gset M i j 0%Z) A in
  for_ (dr A) (fun i M => gset M i i 1%Z) A1.

(** isId, 1125-1152 *)
Definition isId (A : dmat) : res bool :=
  for2 (dr A) (dc A)
    (fun i j ans => let* a := gget A i j in
                    Ok (if i =? j then (if (a =? 1)%Z then ans else false)
                        else (if (a =? 0)%Z then ans else false))) true.

(** set(B,A), 1155-1166, 1169-1180, 1183-1194: loops over the dimensions of A *)
Definition set_from (B A : dmat) : res dmat :=
  for2 (dr A) (dc A) (fun i j M => let* a := gget A i j in gset M i j a) B.
(** set(B,A) on two Matrix<T>, 1197-1208: loops over the dimensions of B *)
Definition set_to (B A : dmat) : res dmat :=
  for2 (dr B) (dc B) (fun i j M => let* a := gget A i j in gset M i j a) B.
(** set(B,A,n,d), 1212-1221 *)
Definition set_nd (B A : dmat) (n d : nat) : res dmat :=
  for2 n d (fun i j M => let* a := gget A i j in gset M i j a) B.
(** set(B,A,n,d1,d2), 1224-1233: the column loop starts at d1 + 1 *)
Definition set_range (B A : dmat) (n d1 d2 : nat) : res dmat :=
  for_ n (fun i => mfold (fun j M => let* a := gget A i j in gset M i j a)
                         (seq (d1 + 1) (d2 - (d1 + 1)))) B.

(** transpose(B,A), 523-536; transpose(A), 538-554 *)
Definition transpose_to (B A : dmat) : res dmat :=
  for2 (dr A) (dc A) (fun i j M => let* a := gget A i j in gset M j i a) B.
Definition transpose (A : dmat) : res dmat := transpose_to (resize0 (dc A) (dr A)) A.

(** ** Products *)

(** the accumulation [x.mul(B(i,0),U(0,j)); for (k = 1; k < d; k++) x.addmul(B(i,k),U(k,j))] *)
Definition dot_acc (B U : dmat) (d i j : nat) : res Z :=
  let* b0 := gget B i 0 in
  let* u0 := gget U 0 j in
  mfold (fun k x => let* b := gget B i k in let* u := gget U k j in Ok (x + b * u)%Z)
        (seq 1 (d - 1)) (b0 * u0)%Z.

(** matprod(C,B,U), 1239-1260 and 1687-1709 *)
Definition matprod (C B U : dmat) : res dmat :=
  for2 (dr B) (dc U) (fun i j M => let* x := dot_acc B U (dc B) i j in gset M i j x) C.

(** matprod_in(C,U), 1263-1285, 1713-1735; matprod_in_int 1287-1309, 1366-1390;
    matprod_in_si 1610-1632, 1660-1683 (the long entries of U multiply exactly) *)
Definition matprod_in (C U : dmat) : res dmat :=
  let m := dr C in let n := dc C in
  let* t := for2 m n (fun i j M => let* x := dot_acc C U n i j in gset M i j x) (resize0 m n) in
  for2 m n (fun i j M => let* x := gget t i j in gset M i j x) C.

(** matprod_in(matrix C, Matrix U), 1882-1907: the number of columns may change *)
Definition matprod_in_resize (C U : dmat) : res dmat :=
  let m := dr C in let n := dc C in let nU := dc U in
  let* t := for2 m nU (fun i j M => let* x := dot_acc C U n i j in gset M i j x) (resize0 m nU) in
  for2 m nU (fun i j M => let* x := gget t i j in gset M i j x) (resize0 m nU).

(** matprod(B,U), 1910-1934: in place, one row at a time *)
Definition matprod_rows (B U : dmat) : res dmat :=
  let n := dr B in let d := dc B in
  let* (B', _) := for_ n (fun i (st : dmat * dmat) =>
      let '(B, C) := st in
      let* C1 := for_ d (fun j C => let* x := dot_acc B U d i j in gset C i j x) C in
      let* B1 := for_ d (fun j B => let* x := gget C1 i j in gset B i j x) B in
      Ok (B1, C1)) (B, resize0 n d) in
  Ok B'.

(** pmatprod_in(C,U,S), 1738-1777, run sequentially: S blocks of m/S rows.
    (The parallel semantics is in MatPar.v.) *)
Definition pmatprod_in_block (C U : dmat) (Sm l : nat) : res dmat :=
  let n := dc C in
  let* t := for2 Sm n (fun i j M => let* x := gget C (l * Sm + i) j in gset M i j x) (resize0 Sm n) in
  let* t1 := matprod_in_resize t U in
  for2 Sm n (fun i j M => let* x := gget t1 i j in gset M (l * Sm + i) j x) C.
Definition pmatprod_in (C U : dmat) (S : nat) : res dmat :=
  guard (0 <? S) (for_ S (fun l C => pmatprod_in_block C U (dr C / S) l) C).

(** ** matcmp, 1965-2003 *)
Definition matcmp_row (B1 B2 : dmat) (c i : nat) (test : bool) : res bool :=
  let* a := gget B1 i 0 in
  let* b := gget B2 i 0 in
  let t1 := Z.abs a in
  let test1 := if (t1 =? Z.abs b)%Z then test else false in
  let sg1 := if (t1 =? a)%Z then 1%Z else (-1)%Z in
  let sg := if (t1 =? b)%Z then sg1 else (- sg1)%Z in
  mfold (fun j t => let* x := gget B1 i j in let* y := gget B2 i j in
                    Ok (if (if (sg =? 1)%Z then x else x * (-1))%Z =? y then t else false)%Z)
        (seq 1 (c - 1)) test1.
Definition matcmp (B1 B2 : dmat) (c r : nat) : res bool :=
  for_ r (matcmp_row B1 B2 c) true.

(** ** Blocks *)

(** the start and size of block [ii] out of [nb] on [m] rows: getblock 692-718,
    putblock 831-857 (the same code for columns).  nb = 0 is a division by zero. *)
Definition blk_size (m nb ii : nat) : nat :=
  if m mod nb =? 0 then m / nb
  else if ii <? m - (m / nb) * nb then m / nb + 1 else m / nb.
Definition blk_beg (m nb ii : nat) : nat :=
  if m mod nb =? 0 then ii * (m / nb)
  else let rem := m - (m / nb) * nb in
       if ii <? rem then ii * (m / nb + 1) else rem * (m / nb + 1) + (m / nb) * (ii - rem).

(** getblock(A,ii,jj,nbr,nbc,diagdec), 683-746 and 749-813 (diagdec is not used) *)
Definition getblock (A : dmat) (ii jj nbr nbc : nat) : res dmat :=
  guard ((0 <? nbr) && (0 <? nbc))
  (let r := blk_size (dr A) nbr ii in
   let k := blk_size (dc A) nbc jj in
   for2 r k (fun i j M => let* a := gget A (blk_beg (dr A) nbr ii + i) (blk_beg (dc A) nbc jj + j) in
                          gset M i j a) (resize0 r k)).

(** putblock(B,A,ii,jj,nbr,nbc,diagdec), 822-886 *)
Definition putblock (B A : dmat) (ii jj nbr nbc : nat) : res dmat :=
  guard ((0 <? nbr) && (0 <? nbc))
  (for2 (blk_size (dr B) nbr ii) (blk_size (dc B) nbc jj)
    (fun i j M => let* a := gget A i j in
                  gset M (blk_beg (dr B) nbr ii + i) (blk_beg (dc B) nbc jj + j) a) B).

(** ** Loop lemmas *)

Definition same_dims (M N : dmat) : Prop := dr M = dr N /\ dc M = dc N /\ dwf M /\ dwf N.

Lemma gget_ok M i j : i < dr M -> j < dc M -> gget M i j = Ok (ent M i j).
Proof.
  intros Hi Hj. unfold gget. apply Nat.ltb_lt in Hi, Hj. now rewrite Hi, Hj.
Qed.

Lemma gset_ok M i j x : dwf M -> i < dr M -> j < dc M ->
  exists M', gset M i j x = Ok M' /\ dwf M' /\ dr M' = dr M /\ dc M' = dc M /\
    forall i' j', ent M' i' j' = if (i' =? i) && (j' =? j) then x else ent M i' j'.
Proof.
  intros W Hi Hj. unfold gset. pose proof Hi as Hi'. pose proof Hj as Hj'.
  apply Nat.ltb_lt in Hi', Hj'. rewrite Hi', Hj'. cbn.
  eexists. split; [reflexivity|]. cbn. split; [now apply wfm_mset|]. do 2 (split; [reflexivity|]).
  intros i' j'. unfold ent, fn. cbn. now apply (mget_mset 0%Z (dr M) (dc M)).
Qed.

(** a loop over a list of distinct indices, each writing its own set of entries *)
Lemma mfold_writes (A : Type) (l : list A) (body : A -> dmat -> res dmat)
      (own : A -> nat -> nat -> bool) (val : A -> nat -> nat -> Z) (M : dmat) :
  NoDup l -> dwf M ->
  (forall a b i j, In a l -> In b l -> a <> b -> own a i j = true -> own b i j = true -> False) ->
  (forall a N, In a l -> dwf N -> dr N = dr M -> dc N = dc M ->
     (forall i j, own a i j = true -> ent N i j = ent M i j) ->
     exists N', body a N = Ok N' /\ dwf N' /\ dr N' = dr M /\ dc N' = dc M /\
       forall i j, ent N' i j = if own a i j then val a i j else ent N i j) ->
  exists M', mfold body l M = Ok M' /\ dwf M' /\ dr M' = dr M /\ dc M' = dc M /\
    (forall a i j, In a l -> own a i j = true -> ent M' i j = val a i j) /\
    (forall i j, (forall a, In a l -> own a i j = false) -> ent M' i j = ent M i j).
Proof.
  intros ND W DJ HB.
  assert (G : forall l1 l2 N, l = l1 ++ l2 -> dwf N -> dr N = dr M -> dc N = dc M ->
    (forall a i j, In a l1 -> own a i j = true -> ent N i j = val a i j) ->
    (forall i j, (forall a, In a l1 -> own a i j = false) -> ent N i j = ent M i j) ->
    exists M', mfold body l2 N = Ok M' /\ dwf M' /\ dr M' = dr M /\ dc M' = dc M /\
    (forall a i j, In a l -> own a i j = true -> ent M' i j = val a i j) /\
    (forall i j, (forall a, In a l -> own a i j = false) -> ent M' i j = ent M i j)).
  { intros l1 l2. revert l1. induction l2 as [|a l2 IH]; intros l1 N E WN D1 D2 H1 H2.
    - exists N. rewrite app_nil_r in E. subst l1. repeat split; auto; apply WN.
    - assert (Ia : In a l) by (rewrite E; apply in_app_iff; right; now left).
      assert (Il1 : forall x, In x l1 -> In x l /\ x <> a).
      { intros x Hx. split; [rewrite E; apply in_app_iff; now left|].
        rewrite E in ND. apply NoDup_remove_2 in ND. intros ->. apply ND. apply in_app_iff. now left. }
      destruct (HB a N Ia WN D1 D2) as (N' & HN & WN' & D1' & D2' & EN).
      { intros i j Ho. apply H2. intros b Hb. destruct (Il1 b Hb) as [Ib Nb].
        destruct (own b i j) eqn:Eb; [|reflexivity]. exfalso. eauto. }
      cbn [mfold]. rewrite HN. cbn [bind].
      apply (IH (l1 ++ [a])); auto.
      + now rewrite <- app_assoc.
      + intros b i j Hb Ho. rewrite EN. apply in_app_iff in Hb as [Hb|[<-|[]]].
        * destruct (Il1 b Hb) as [Ib Nb]. destruct (own a i j) eqn:Ea; [exfalso; eauto|]. now apply H1.
        * now rewrite Ho.
      + intros i j Hno. rewrite EN. rewrite (Hno a) by (apply in_app_iff; right; now left).
        apply H2. intros b Hb. apply Hno. apply in_app_iff. now left. }
  apply (G [] l M); auto. intros ? ? ? [].
Qed.

(** double loop writing (g i j) := f i j, one entry per iteration *)
Lemma for2_writes (m n : nat) (body : nat -> nat -> dmat -> res dmat) (gi gj : nat -> nat) (f : nat -> nat -> Z)
      (tr : bool) (M : dmat) :
  dwf M ->
  (forall i i', i < m -> i' < m -> gi i = gi i' -> i = i') ->
  (forall j j', j < n -> j' < n -> gj j = gj j' -> j = j') ->
  let row i j := if tr then gj j else gi i in
  let clm i j := if tr then gi i else gj j in
  (forall i j, i < m -> j < n -> row i j < dr M /\ clm i j < dc M) ->
  (forall i j N, i < m -> j < n -> dwf N -> dr N = dr M -> dc N = dc M ->
     ent N (row i j) (clm i j) = ent M (row i j) (clm i j) ->
     body i j N = gset N (row i j) (clm i j) (f i j)) ->
  exists M', for2 m n body M = Ok M' /\ dwf M' /\ dr M' = dr M /\ dc M' = dc M /\
    (forall i j, i < m -> j < n -> ent M' (row i j) (clm i j) = f i j) /\
    (forall r k, (forall i j, i < m -> j < n -> ~ (r = row i j /\ k = clm i j)) -> ent M' r k = ent M r k).
Proof.
  intros W Ii Ij row clm Hr Hb.
  set (own := fun i r k => existsb (fun j => (r =? row i j) && (k =? clm i j)) (seq 0 n)).
  set (val := fun i r k => match find (fun j => (r =? row i j) && (k =? clm i j)) (seq 0 n) with
                           | Some j => f i j | None => 0%Z end).
  assert (OI : forall i r k, own i r k = true <-> exists j, j < n /\ r = row i j /\ k = clm i j).
  { intros i r k. unfold own. rewrite existsb_exists. split.
    - intros (j & Hj & E). apply in_seq in Hj. apply andb_true_iff in E as [E1 E2].
      apply Nat.eqb_eq in E1, E2. exists j. repeat split; auto. lia.
    - intros (j & Hj & -> & ->). exists j. rewrite !Nat.eqb_refl. split; [apply in_seq; lia|reflexivity]. }
  assert (INJ : forall i j i' j', i < m -> i' < m -> j < n -> j' < n ->
            row i j = row i' j' -> clm i j = clm i' j' -> i = i' /\ j = j').
  { unfold row, clm. intros i j i' j' Hi Hi' Hj Hj' E1 E2. destruct tr; split; auto. }
  assert (VI : forall i j, i < m -> j < n -> val i (row i j) (clm i j) = f i j).
  { intros i j Hi Hj. unfold val.
    destruct (find _ _) as [j'|] eqn:E.
    - apply find_some in E as [Hj' E]. apply in_seq in Hj'. apply andb_true_iff in E as [E1 E2].
      apply Nat.eqb_eq in E1, E2. destruct (INJ i j i j') as [_ ->]; auto; lia.
    - apply find_none with (x := j) in E; [|apply in_seq; lia]. rewrite !Nat.eqb_refl in E. discriminate. }
  destruct (mfold_writes nat (seq 0 m) (fun i => for_ n (body i)) own val M) as (M' & H1 & H2 & H3 & H4 & H5 & H6).
  - apply seq_NoDup.
  - exact W.
  - intros i i' r k Hi Hi' Ne O1 O2. apply in_seq in Hi, Hi'.
    apply OI in O1 as (j & Hj & -> & ->). apply OI in O2 as (j' & Hj' & E1 & E2).
    apply Ne. destruct (INJ i j i' j'); auto; lia.
  - intros i N Hi WN D1 D2 HN. apply in_seq in Hi.
    destruct (mfold_writes nat (seq 0 n) (body i) (fun j r k => (r =? row i j) && (k =? clm i j))
                (fun j _ _ => f i j) N) as (N' & K1 & K2 & K3 & K4 & K5 & K6).
    + apply seq_NoDup.
    + exact WN.
    + intros j j' r k Hj Hj' Ne O1 O2. apply in_seq in Hj, Hj'.
      apply andb_true_iff in O1 as [O1 O1'], O2 as [O2 O2'].
      apply Nat.eqb_eq in O1, O1', O2, O2'. apply Ne. destruct (INJ i j i j'); try lia; congruence.
    + intros j N1 Hj WN1 D11 D12 E. apply in_seq in Hj.
      destruct (Hr i j) as [R1 R2]; try lia.
      destruct (gset_ok N1 (row i j) (clm i j) (f i j)) as (N2 & G1 & G2 & G3 & G4 & G5); try congruence; try lia.
      exists N2. rewrite Hb; try lia; try congruence.
      2:{ rewrite E by now rewrite !Nat.eqb_refl. apply HN. apply OI. exists j. repeat split; lia. }
      repeat split; try congruence; try apply G2. exact G5.
    + exists N'. split; [exact K1|]. split; [exact K2|]. do 2 (split; [congruence|]).
      intros r k. destruct (own i r k) eqn:Eo.
      * apply OI in Eo as (j & Hj & -> & ->). rewrite VI by lia.
        apply (K5 j); [apply in_seq; lia|]. now rewrite !Nat.eqb_refl.
      * apply K6. intros j Hj. apply in_seq in Hj.
        destruct ((r =? row i j) && (k =? clm i j)) eqn:E; [|reflexivity].
        apply andb_true_iff in E as [E1 E2]. apply Nat.eqb_eq in E1, E2.
        assert (own i r k = true) by (apply OI; exists j; repeat split; auto; lia). congruence.
  - exists M'. split; [exact H1|]. split; [exact H2|]. do 2 (split; [assumption|]). split.
    + intros i j Hi Hj. rewrite (H5 i); [now apply VI|apply in_seq; lia|]. apply OI. eauto.
    + intros r k Hno. apply H6. intros i Hi. apply in_seq in Hi.
      destruct (own i r k) eqn:E; [|reflexivity]. exfalso.
      apply OI in E as (j & Hj & -> & ->). apply (Hno i j); auto; lia.
Qed.

(** the common case: entry (i,j) at iteration (i,j) *)
Lemma for2_simple (m n : nat) (body : nat -> nat -> dmat -> res dmat) (f : nat -> nat -> Z) (M : dmat) :
  dwf M -> m <= dr M -> n <= dc M ->
  (forall i j N, i < m -> j < n -> dwf N -> dr N = dr M -> dc N = dc M ->
     ent N i j = ent M i j -> body i j N = gset N i j (f i j)) ->
  exists M', for2 m n body M = Ok M' /\ dwf M' /\ dr M' = dr M /\ dc M' = dc M /\
    (forall i j, i < m -> j < n -> ent M' i j = f i j) /\
    (forall r k, m <= r \/ n <= k -> ent M' r k = ent M r k).
Proof.
  intros W Hm Hn Hb.
  destruct (for2_writes m n body (fun i => i) (fun j => j) f false M) as (M' & H1 & H2 & H3 & H4 & H5 & H6);
    auto.
  - intros; lia.
  - exists M'. do 4 (split; [assumption|]). split; [exact H5|].
    intros r k Hrk. apply H6. intros i j Hi Hj [-> ->]. lia.
Qed.

Lemma resize0_wf m n : dwf (resize0 m n).
Proof. apply mtab_wfm. Qed.

(** extensional equality of two well-formed matrices *)
Lemma dmat_ext M N : dwf M -> dwf N -> dr M = dr N -> dc M = dc N ->
  (forall i j, i < dr M -> j < dc M -> ent M i j = ent N i j) -> M = N.
Proof.
  destruct M as [r k e], N as [r' k' e']; unfold dwf, ent; cbn. intros W W' -> -> H. f_equal.
  now apply (mat_ext 0%Z r' k').
Qed.

Lemma ent_out M i j : dwf M -> dr M <= i \/ dc M <= j -> ent M i j = 0%Z.
Proof. intros W H. now apply (mget_out 0%Z (dr M) (dc M)). Qed.
