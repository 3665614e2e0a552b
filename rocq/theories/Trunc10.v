(** * trunc(B,A,d,n,m,t,tau), src/mat.h 2482-2571 *)
From Coq Require Import ZArith Lia List Bool Arith.
From Verif Require Import Base Spec Mat MatOps MatOpsFacts MachInt Trunc.
Import ListNotations.
Local Open Scope Z_scope.

(** rows i0..i1-1, columns 0..n-1 *)
Definition rows_for (i0 i1 n : nat) (f : nat -> nat -> dmat -> res dmat) (B : dmat) : res dmat :=
  mfold (fun i => for_ n (f i)) (seq i0 (i1 - i0)) B.
Definition rows_max (M : dmat) (i0 i1 n : nat) (m : Z) : res Z :=
  mfold (fun i => for_ n (fun j l => let* a := gget M i j in Ok (Z.max l (sizeinbase2 a)))) (seq i0 (i1 - i0)) m.

Section TruncModel.
(** the C expressions [(long) (((double) tau) * 0.301029995)] (2505-2506) and
    [(long) (((double) max2 - t) * 0.301029995)] (2556-2557) *)
Variable e10 : Z -> Z.
Variable e10' : Z -> Z -> Z.

(** simplification: the running maximum max2 of the first loops is computed in a second
    pass over the same entries *)
Definition trunc (B A : dmat) (d n m : nat) (t tau : Z) : res dmat :=
  let* B1 := (if 0 <? tau
              then rows_for 0 d n (fun i j M => let* a := gget A i j in gset M i j (Z.quot a (10 ^ e10 tau))) B
              else rows_for 0 d n (fun i j M => let* a := gget A i j in gset M i j a) B) in
  let* mx := rows_max B1 0 d n 0 in
  let* max2 := (if 0 <? t then rows_max A d m n mx else Ok mx) in
  if t <? 0 then
    let* B2 := rows_for d m n (fun i j M => gset M i j 0) B1 in
    mfold (fun i M => gset M i (i - d) 1) (seq d (m - d)) B2
  else if (t =? 0) || (max2 <=? t) then
    rows_for d m n (fun i j M => let* a := gget A i j in gset M i j a) B1
  else
    let k := Z.max 0 (e10' max2 t) in
    let* B2 := rows_for 0 d n (fun i j M => let* b := gget M i j in gset M i j (Z.quot b (10 ^ k))) B1 in
    rows_for d m n (fun i j M => let* a := gget A i j in gset M i j (Z.quot a (10 ^ k))) B2.
End TruncModel.

Lemma rows_for_ok i0 i1 n body (f : nat -> nat -> Z) B : dwf B -> (i0 <= i1 <= dr B)%nat -> (n <= dc B)%nat ->
  (forall i j N, (i0 <= i < i1)%nat -> (j < n)%nat -> dwf N -> dr N = dr B -> dc N = dc B ->
     ent N i j = ent B i j -> body i j N = gset N i j (f i j)) ->
  exists B', rows_for i0 i1 n body B = Ok B' /\ dwf B' /\ dr B' = dr B /\ dc B' = dc B /\
    (forall i j, (i0 <= i < i1)%nat -> (j < n)%nat -> ent B' i j = f i j) /\
    (forall r k, (r < i0)%nat \/ (i1 <= r)%nat \/ (n <= k)%nat -> ent B' r k = ent B r k).
Proof.
  intros W Hi Hn Hb. unfold rows_for.
  assert (E : mfold (fun i => for_ n (body i)) (seq i0 (i1 - i0)) B = for2 (i1 - i0) n (fun i => body (i0 + i)%nat) B).
  { unfold for2, for_ at 2. generalize (i1 - i0)%nat as k. intros k.
    assert (S : seq i0 k = map (fun i => (i0 + i)%nat) (seq 0 k)).
    { assert (G : forall k z, seq (i0 + z) k = map (fun i => (i0 + i)%nat) (seq z k)).
      { clear. induction k as [|k IH]; intros z; [reflexivity|]. cbn [seq map]. f_equal.
        rewrite <- IH. f_equal. lia. }
      rewrite <- G. f_equal. lia. }
    rewrite S. generalize (seq 0 k) as l. intros l. revert B W Hi Hn Hb. intros B _ _ _ _.
    revert B. induction l as [|a l IH]; intros B; [reflexivity|]. cbn [map mfold].
    destruct (for_ n (body (i0 + a)%nat) B); cbn [bind]; auto. }
  rewrite E.
  destruct (for2_writes (i1 - i0) n (fun i => body (i0 + i)%nat) (fun i => (i0 + i)%nat) (fun j => j)
     (fun i j => f (i0 + i)%nat j) false B W) as (B' & P & W' & D1 & D2 & E1 & E2).
  - intros; lia.
  - intros; lia.
  - intros i j Hi' Hj. lia.
  - intros i j N Hi' Hj WN R1 R2 EN. apply Hb; auto; lia.
  - exists B'. do 4 (split; [assumption|]). split.
    + intros i j Hij Hj. specialize (E1 (i - i0)%nat j ltac:(lia) Hj). cbv beta in E1.
      replace (i0 + (i - i0))%nat with i in E1 by lia. exact E1.
    + intros r k H. apply E2. intros i j Hi' Hj [-> ->]. lia.
Qed.

(** [b] is the largest bit size of the entries satisfying [P] (0 if there is none), or [s] *)
Definition is_max (M : zmat) (P : nat -> nat -> Prop) (s b : Z) : Prop :=
  s <= b /\ (forall i j, P i j -> sizeinbase2 (M i j) <= b) /\ (b = s \/ exists i j, P i j /\ b = sizeinbase2 (M i j)).

Lemma rows_max_ok M i0 i1 n s : (i0 <= i1 <= dr M)%nat -> (n <= dc M)%nat ->
  exists b, rows_max M i0 i1 n s = Ok b /\ is_max (ent M) (fun i j => (i0 <= i < i1)%nat /\ (j < n)%nat) s b.
Proof.
  intros Hi Hn. unfold rows_max.
  assert (R : forall i s, (i < dr M)%nat -> 
     for_ n (fun j l => let* a := gget M i j in Ok (Z.max l (sizeinbase2 a))) s =
     Ok (foldmax (fun j => sizeinbase2 (ent M i j)) (seq 0 n) s)).
  { intros i s' Hi'. unfold for_. apply mfold_pure with (g := fun j m => Z.max m (sizeinbase2 (ent M i j))).
    intros j x Hj. apply in_seq in Hj. rewrite gget_ok by lia. reflexivity. }
  rewrite mfold_pure with (g := fun i s => foldmax (fun j => sizeinbase2 (ent M i j)) (seq 0 n) s).
  2:{ intros i x Hx. apply in_seq in Hx. apply R. lia. }
  eexists. split; [reflexivity|].
  assert (G : forall l s, let b := fold_left (fun t a => foldmax (fun j => sizeinbase2 (ent M a j)) (seq 0 n) t) l s in
    is_max (ent M) (fun i j => In i l /\ (j < n)%nat) s b).
  { induction l as [|a l IH]; intros s'; cbn [fold_left].
    - cbv zeta. split; [lia|]. split; [intros ? ? [[] _]|now left].
    - cbv zeta in *. destruct (IH (foldmax (fun j => sizeinbase2 (ent M a j)) (seq 0 n) s')) as (H1 & H2 & H3).
      destruct (foldmax_spec (fun j => sizeinbase2 (ent M a j)) (seq 0 n) s') as (F1 & F2 & F3).
      set (b := fold_left _ l _) in *. split; [lia|]. split.
      + intros i j [[<-|Hl] Hj].
        * specialize (F2 j ltac:(apply in_seq; lia)). lia.
        * apply H2. auto.
      + destruct H3 as [->|(i & j & [Hl Hj] & ->)].
        * destruct F3 as [->|(j & Hj & ->)]; [now left|]. right. exists a, j. apply in_seq in Hj. split; [split; [now left|lia]|reflexivity].
        * right. exists i, j. split; [split; [now right|assumption]|reflexivity]. }
  destruct (G (seq i0 (i1 - i0)) s) as (H1 & H2 & H3). split; [exact H1|]. split.
  - intros i j [Hij Hj]. apply H2. split; [apply in_seq; lia|assumption].
  - destruct H3 as [E|(i & j & [Hl Hj] & E)]; [now left|]. right. exists i, j. apply in_seq in Hl. split; [lia|exact E].
Qed.

(** the matrix after the first division: 10^k in the upper part *)
Definition thrown (e10 : Z -> Z) (tau : Z) (d : nat) (A : zmat) : zmat := fun i j =>
  if (i <? d)%nat && (0 <? tau) then Z.quot (A i j) (10 ^ e10 tau) else A i j.

Lemma trunc_ok e10 e10' B A d n m t tau : dwf B ->
  (d <= m)%nat -> (m <= dr A)%nat -> (m <= dr B)%nat -> (n <= dc A)%nat -> (n <= dc B)%nat -> (t < 0 -> (m - d <= n)%nat) ->
  exists B', trunc e10 e10' B A d n m t tau = Ok B' /\ dwf B' /\ dr B' = dr B /\ dc B' = dc B /\
    (t < 0 -> forall i j, (i < m)%nat -> (j < n)%nat ->
       ent B' i j = if (i <? d)%nat then thrown e10 tau d (ent A) i j else if (j =? i - d)%nat then 1 else 0) /\
    (0 <= t -> exists max2, is_max (thrown e10 tau d (ent A)) (fun i j => (i < m)%nat /\ (j < n)%nat) 0 max2 /\
       let k := if (t =? 0) || (max2 <=? t) then 0 else Z.max 0 (e10' max2 t) in
       forall i j, (i < m)%nat -> (j < n)%nat -> ent B' i j = Z.quot (thrown e10 tau d (ent A) i j) (10 ^ k)).
Proof.
  intros W Hd HmA HmB HnA HnB Hmd. unfold trunc.
  set (T := thrown e10 tau d (ent A)).
  assert (S1 : exists B1, (if 0 <? tau
              then rows_for 0 d n (fun i j M => let* a := gget A i j in gset M i j (Z.quot a (10 ^ e10 tau))) B
              else rows_for 0 d n (fun i j M => let* a := gget A i j in gset M i j a) B) = Ok B1 /\
     dwf B1 /\ dr B1 = dr B /\ dc B1 = dc B /\ (forall i j, (i < d)%nat -> (j < n)%nat -> ent B1 i j = T i j)).
  { unfold T, thrown. destruct (Z.ltb_spec 0 tau).
    - destruct (rows_for_ok 0 d n (fun i j M => let* a := gget A i j in gset M i j (Z.quot a (10 ^ e10 tau)))
        (fun i j => Z.quot (ent A i j) (10 ^ e10 tau)) B W ltac:(lia) HnB) as (B1 & P & W1 & R1 & K1 & V & _).
      { intros i j N Hi Hj _ _ _ _. rewrite gget_ok by lia. reflexivity. }
      exists B1. do 4 (split; [assumption|]). intros i j Hi Hj. rewrite V by lia.
      destruct (Nat.ltb_spec i d); [|lia]. reflexivity.
    - destruct (rows_for_ok 0 d n (fun i j M => let* a := gget A i j in gset M i j a) (ent A) B W ltac:(lia) HnB)
        as (B1 & P & W1 & R1 & K1 & V & _).
      { intros i j N Hi Hj _ _ _ _. rewrite gget_ok by lia. reflexivity. }
      exists B1. do 4 (split; [assumption|]). intros i j Hi Hj. rewrite V by lia.
      rewrite andb_false_r. reflexivity. }
  destruct S1 as (B1 & -> & W1 & R1 & K1 & V1). cbn [bind].
  destruct (rows_max_ok B1 0 d n 0) as (mx & -> & Hx); [lia|lia|]. cbn [bind].
  assert (TA : forall i j, (d <= i)%nat -> T i j = ent A i j).
  { intros i j Hi. unfold T, thrown. destruct (Nat.ltb_spec i d); [lia|]. reflexivity. }
  assert (S2 : exists max2, (if 0 <? t then rows_max A d m n mx else Ok mx) = Ok max2 /\
     (0 < t -> is_max T (fun i j => (i < m)%nat /\ (j < n)%nat) 0 max2)).
  { destruct (Z.ltb_spec 0 t) as [Ht|Ht]; [|exists mx; split; [reflexivity|lia]].
    destruct (rows_max_ok A d m n mx) as (b & P & Hb); [lia|lia|]. exists b. split; [exact P|]. intros _.
    destruct Hx as (X1 & X2 & X3), Hb as (Y1 & Y2 & Y3). split; [lia|]. split.
    - intros i j [Hi Hj]. destruct (Nat.lt_ge_cases i d).
      + rewrite <- V1 by assumption. specialize (X2 i j ltac:(lia)). lia.
      + rewrite TA by assumption. apply Y2. lia.
    - destruct Y3 as [->|(i & j & [Hi Hj] & ->)].
      + destruct X3 as [->|(i & j & [Hi Hj] & ->)]; [now left|]. right. exists i, j. split; [lia|]. now rewrite V1 by lia.
      + right. exists i, j. split; [lia|]. now rewrite TA by lia. }
  destruct S2 as (max2 & -> & Hmax). cbn [bind].
  destruct (Z.ltb_spec t 0) as [Ht|Ht]; [specialize (Hmd Ht)|].
  - destruct (rows_for_ok d m n (fun i j M => gset M i j 0) (fun _ _ => 0) B1 W1 ltac:(lia) ltac:(lia))
      as (B2 & P2 & W2 & R2 & K2 & V2 & O2); [reflexivity|].
    rewrite P2. cbn [bind].
    destruct (mfold_writes nat (seq d (m - d)) (fun i M => gset M i (i - d) 1)
       (fun i r k => (r =? i)%nat && (k =? i - d)%nat) (fun _ _ _ => 1) B2) as (B3 & P3 & W3 & R3 & K3 & V3 & O3).
    + apply seq_NoDup.
    + exact W2.
    + intros a b r k _ _ Ne Ha Hb. apply andb_true_iff in Ha as [Ha _], Hb as [Hb _]. apply Nat.eqb_eq in Ha, Hb. lia.
    + intros i N Hi WN RN KN _. apply in_seq in Hi.
      destruct (gset_ok N i (i - d) 1 WN) as (N2 & G1 & G2 & G3 & G4 & G5); try lia.
      exists N2. split; [exact G1|]. split; [exact G2|]. do 2 (split; [congruence|]). exact G5.
    + exists B3. split; [exact P3|]. split; [exact W3|]. do 2 (split; [congruence|]). split; [|lia]. intros _ i j Hi Hj.
      destruct (Nat.ltb_spec i d) as [L|L].
      * rewrite O3.
        -- rewrite O2 by lia. now apply V1.
        -- intros a Ha. apply in_seq in Ha. destruct (Nat.eqb_spec i a); [lia|reflexivity].
      * destruct (Nat.eqb_spec j (i - d)) as [->|Nj].
        -- apply (V3 i); [apply in_seq; lia|]. now rewrite !Nat.eqb_refl.
        -- rewrite O3; [now apply V2; lia|]. intros a Ha. apply in_seq in Ha.
           destruct (Nat.eqb_spec i a) as [->|]; [|reflexivity]. destruct (Nat.eqb_spec j (a - d)); [lia|reflexivity].
  - destruct ((t =? 0) || (max2 <=? t)) eqn:Ek.
    + destruct (rows_for_ok d m n (fun i j M => let* a := gget A i j in gset M i j a) (ent A) B1 W1 ltac:(lia) ltac:(lia))
        as (B2 & P2 & W2 & R2 & K2 & V2 & O2).
      { intros i j N Hi Hj _ _ _ _. rewrite gget_ok by lia. reflexivity. }
      exists B2. split; [exact P2|]. split; [exact W2|]. do 2 (split; [congruence|]). split; [lia|]. intros _.
      assert (Q : exists M2, is_max T (fun i j => (i < m)%nat /\ (j < n)%nat) 0 M2 /\ ((t =? 0) || (M2 <=? t) = true)).
      { destruct (Z.eqb_spec t 0) as [->|Nt]; cbn [orb] in *.
        - destruct (rows_max_ok (mkD m n (mtab m n T)) 0 m n 0) as (b & _ & Hb); [cbn; lia|cbn; lia|].
          exists b. split; [|reflexivity]. destruct Hb as (H1 & H2 & H3). split; [exact H1|].
          assert (EE : forall i j, (i < m)%nat -> (j < n)%nat -> ent (mkD m n (mtab m n T)) i j = T i j).
          { intros i j Hi Hj. unfold ent, fn. cbn [de]. now rewrite mget_mtab. }
          split.
          + intros i j [Hi Hj]. rewrite <- EE by assumption. apply H2. lia.
          + destruct H3 as [->|(i & j & [Hi Hj] & ->)]; [now left|]. right. exists i, j. split; [lia|]. now rewrite EE by lia.
        - exists max2. split; [apply Hmax; lia|exact Ek]. }
      destruct Q as (M2 & HM & EM). exists M2. split; [exact HM|]. rewrite EM. cbv zeta. intros i j Hi Hj.
      change (10 ^ 0) with 1. rewrite Z.quot_1_r. destruct (Nat.lt_ge_cases i d).
      * rewrite O2 by lia. now apply V1.
      * rewrite V2, TA by lia. reflexivity.
    + set (k := Z.max 0 (e10' max2 t)).
      destruct (rows_for_ok 0 d n (fun i j M => let* b := gget M i j in gset M i j (Z.quot b (10 ^ k)))
         (fun i j => Z.quot (T i j) (10 ^ k)) B1 W1 ltac:(lia) ltac:(lia)) as (B2 & P2 & W2 & R2 & K2 & V2 & O2).
      { intros i j N Hi Hj WN RN KN EN. rewrite gget_ok by lia. cbn [bind]. rewrite EN, V1 by lia. reflexivity. }
      rewrite P2. cbn [bind].
      destruct (rows_for_ok d m n (fun i j M => let* a := gget A i j in gset M i j (Z.quot a (10 ^ k)))
         (fun i j => Z.quot (ent A i j) (10 ^ k)) B2 W2 ltac:(lia) ltac:(lia)) as (B3 & P3 & W3 & R3 & K3 & V3 & O3).
      { intros i j N Hi Hj WN RN KN EN. rewrite gget_ok by lia. reflexivity. }
      exists B3. split; [exact P3|]. split; [exact W3|]. do 2 (split; [congruence|]). split; [lia|]. intros _.
      apply orb_false_iff in Ek as [Ek1 Ek2]. apply Z.eqb_neq in Ek1.
      exists max2. split; [apply Hmax; lia|]. rewrite Ek2. destruct (Z.eqb_spec t 0); [lia|]. cbn [orb]. cbv zeta. fold k.
      intros i j Hi Hj. destruct (Nat.lt_ge_cases i d).
      * rewrite O3 by lia. apply V2; lia.
      * rewrite V3, TA by lia. reflexivity.
Qed.
