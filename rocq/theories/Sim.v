(** * A [Lattice] over any matrix class whose operations compute what the plain class
    computes runs in lock step with the model of Hlll.v

    [slaws], [mlaws]: the scalars of type G stand for values of type F ([v]), the
    matrices of type M for entries [mv A i j], and every operation returns the value
    that the operations [fp] of Hlll.v give.  Rows that an operation of the class is
    not asked to write may be changed (they are in MatrixPE), so the simulation relates
    only the entries that the algorithm reads again. *)
From Coq Require Import ZArith Lia List Bool Arith.
From Verif Require Import Base Spec Mat FP Hlll HlllM Safety.
Import ListNotations.

(** ** Results in lock step *)
Definition rrel {A B} (P : A -> B -> Prop) (m : res A) (m' : res B) : Prop :=
  match m, m' with Ok a, Ok b => P a b | NoFuel, NoFuel => True | _, _ => False end.
Lemma rrel_bind {A B A' B'} (P : A -> A' -> Prop) (Q : B -> B' -> Prop) m m' k k' :
  rrel P m m' -> (forall a b, P a b -> rrel Q (k a) (k' b)) -> rrel Q (bind m k) (bind m' k').
Proof. destruct m, m'; cbn; auto; contradiction. Qed.
Lemma rrel_weaken {A B} (P Q : A -> B -> Prop) m m' :
  (forall a b, P a b -> Q a b) -> rrel P m m' -> rrel Q m m'.
Proof. destruct m, m'; cbn; auto. Qed.
Lemma rrel_safe {A B} (P : A -> B -> Prop) (Q : B -> Prop) m m' :
  rrel P m m' -> safe Q m' -> rrel (fun a b => P a b /\ Q b) m m'.
Proof. destruct m, m'; cbn; auto. Qed.

Definition okp {A} (P : A -> Prop) (m : res A) : Prop := exists x, m = Ok x /\ P x.
Lemma rrel_okl {A B B'} (P : A -> Prop) (Q : B -> B' -> Prop) m k m' :
  okp P m -> (forall x, P x -> rrel Q (k x) m') -> rrel Q (bind m k) m'.
Proof. intros (x & -> & H) K. cbn [bind]. auto. Qed.

(** functional scalar product *)
Definition spf {F} (fp : fpops F) (a b : nat -> F) (l : nat) : F :=
  fold_left (fun acc i => faddmul fp acc (a i) (b i)) (seq 1 (l - 1)) (fmul fp (a 0) (b 0)).

Section Laws.
Context {F G M : Type} (fp : fpops F) (so : sops G) (mo : mops G M)
        (v : G -> F) (mv : M -> nat -> nat -> F) (mwf : M -> Prop) (n d : nat).

Definition okv (m : res G) (y : F) : Prop := okp (fun x => v x = y) m.

Record slaws : Prop := {
  l_zero : v (s_zero so) = fzero fp; l_one : v (s_one so) = fone fp;
  l_01 : v (s_01 so) = f01 fp; l_001 : v (s_001 so) = f001 fp; l_eps : v (s_eps so) = feps fp;
  l_add : forall a b, okv (s_add so a b) (fadd fp (v a) (v b));
  l_mul : forall a b, okv (s_mul so a b) (fmul fp (v a) (v b));
  l_div : forall a b, okv (s_div so a b) (fdiv fp (v a) (v b));
  l_neg : forall a, v (s_neg so a) = fneg fp (v a);
  l_abs : forall a, v (s_abs so a) = fabs fp (v a);
  l_sqrt : forall a, okv (s_sqrt so a) (fsqrt fp (v a));
  l_rnd : forall a, okv (s_rnd so a) (frnd fp (v a));
  l_submul : forall r a b, okv (s_submul so r a b) (fsubmul fp (v r) (v a) (v b));
  l_ge0 : forall a, s_ge0 so a = fle fp (fzero fp) (v a);
  l_le : forall a b, s_le so a b = fle fp (v a) (v b);
  l_lt : forall a b, s_lt so a b = flt fp (v a) (v b);
  l_cmp1 : forall a b, s_cmp1 so a b = fcmp1 fp (v a) (v b);
  l_nz : forall a, s_nz so a = Ok (fnz fp (v a));
  l_gse : forall a, s_gse so a = Ok (fgse fp (v a));
  l_setf : forall a, s_setf so a = Ok (fset_f fp (v a))
}.

(** columns other than j keep their values *)
Definition keeps (j : nat) (A A' : M) : Prop :=
  forall i j', i < n -> j' < d -> j' <> j -> mv A' i j' = mv A i j'.

Record mlaws : Prop := {
  l_get : forall A i j, mwf A -> i < n -> j < d -> okv (m_get mo A i j) (mv A i j);
  l_getnn : forall A i j, mwf A -> i < n -> j < d -> okv (m_getnn mo A i j) (mv A i j);
  l_set : forall A i j x, mwf A -> i < n -> j < d ->
    okp (fun A' => mwf A' /\ keeps j A A' /\
                   forall k, k < n -> mv A' k j = if k =? i then v x else mv A k j) (m_set mo i j x A);
  l_set0 : forall A i j, mwf A -> i < n -> j < d ->
    okp (fun A' => mwf A' /\ keeps j A A' /\
                   forall k, k < n -> mv A' k j = if k =? i then fzero fp else mv A k j) (m_set0 mo i j A);
  l_setcolz : forall A j b l, mwf A -> j < d -> 1 <= l <= n ->
    okp (fun A' => mwf A' /\ keeps j A A' /\
                   (forall i, i < l -> mv A' i j = fset_z fp (nth i b 0%Z)) /\
                   (forall i, l <= i < n -> mv A i j = fzero fp -> mv A' i j = fzero fp)) (m_setcolz mo j b l A);
  l_setcolf : forall A j t l, mwf A -> j < d -> 1 <= l <= n -> length t = n ->
    okp (fun A' => mwf A' /\ keeps j A A' /\
                   forall i, i < l -> mv A' i j = v (nth i t (s_zero so))) (m_setcolf mo j t l A);
  l_copycol : forall A j W jw l, mwf A -> mwf W -> j < d -> jw < d -> 1 <= l <= n ->
    okp (fun A' => mwf A' /\ keeps j A A' /\ forall i, i < l -> mv A' i j = mv W i jw) (m_copycol mo j W jw l A);
  l_dot : forall V jv kv W jw kw len old, mwf V -> mwf W -> jv < d -> jw < d ->
    1 <= len -> kv + len <= n -> kw + len <= n ->
    okv (m_dot mo V jv kv W jw kw (Z.of_nat len) old)
        (spf fp (fun i => mv V (kv + i) jv) (fun i => mv W (kw + i) jw) len);
  l_norm2 : forall V jv kv len old, mwf V -> jv < d -> 1 <= len -> kv + len <= n ->
    okv (m_norm2 mo V jv kv (Z.of_nat len) old)
        (spf fp (fun i => mv V (kv + i) jv) (fun i => mv V (kv + i) jv) len);
  l_norm : forall V jv kv len old, mwf V -> jv < d -> 1 <= len -> kv + len <= n ->
    okv (m_norm mo V jv kv (Z.of_nat len) old)
        (fsqrt fp (spf fp (fun i => mv V (kv + i) jv) (fun i => mv V (kv + i) jv) len));
  l_fmasub : forall A j k W jw kw Zm jz kz a l, mwf A -> mwf W -> mwf Zm -> j < d -> jw < d -> jz < d ->
    1 <= l -> k + l <= n -> kw + l <= n -> kz + l <= n ->
    okp (fun A' => mwf A' /\ keeps j A A' /\
           forall i, i < l -> mv A' (k + i) j = fsubmul fp (mv W (kw + i) jw) (mv Zm (kz + i) jz) (v a))
        (m_fmasub mo j k W jw kw Zm jz kz a l A);
  l_divc : forall A j k W jw kw a len, mwf A -> mwf W -> j < d -> jw < d -> k + len <= n -> kw + len <= n ->
    okp (fun A' => mwf A' /\ keeps j A A' /\
           forall i, i < len -> mv A' (k + i) j = fdiv fp (mv W (kw + i) jw) (v a))
        (m_div mo j k W jw kw a (Z.of_nat len) A);
  l_subcol : forall A j k l, mwf A -> j < d -> k < d -> j <> k -> l <= n ->
    okp (fun A' => mwf A' /\ keeps j A A' /\ forall i, i < l -> mv A' i j = fsub fp (mv A i j) (mv A i k))
        (m_subcol mo j k l A);
  l_addcol : forall A j k l, mwf A -> j < d -> k < d -> j <> k -> l <= n ->
    okp (fun A' => mwf A' /\ keeps j A A' /\ forall i, i < l -> mv A' i j = fadd fp (mv A i j) (mv A i k))
        (m_addcol mo j k l A);
  l_submulcol : forall A j k a l, mwf A -> j < d -> k < d -> j <> k -> l <= n ->
    okp (fun A' => mwf A' /\ keeps j A A' /\ forall i, i < l -> mv A' i j = fsubmul fp (mv A i j) (v a) (mv A i k))
        (m_submulcol mo j k a l A);
  l_colswap : forall A j k, mwf A -> j < d -> k < d ->
    okp (fun A' => mwf A' /\ forall i c, i < n -> c < d ->
           mv A' i c = mv A i (if c =? j then k else if c =? k then j else c)) (m_colswap mo j k A)
}.
End Laws.

(** ** Lists *)
Lemma map_lupd {A B} (f : A -> B) l i x : map f (lupd l i x) = lupd (map f l) i (f x).
Proof. revert i. induction l as [|y l IH]; intros [|i]; cbn; auto. now rewrite IH. Qed.
Lemma nth_mapv {A B} (f : A -> B) l i a b : f a = b -> nth i (map f l) b = f (nth i l a).
Proof. intros <-. apply map_nth. Qed.
Lemma col_mapmap {A B} (f : A -> B) (X : mat A) j : col (map (map f) X) j = map f (col X j).
Proof. unfold col. change (@nil B) with (map f []). apply map_nth. Qed.
Lemma mget_mapmap {A B} (f : A -> B) (X : mat A) i j a b : f a = b -> mget b (map (map f) X) i j = f (mget a X i j).
Proof. intros E. unfold mget. rewrite col_mapmap. now apply nth_mapv. Qed.
Lemma mset_mapmap {A B} (f : A -> B) (X : mat A) i j x : map (map f) (mset X i j x) = mset (map (map f) X) i j (f x).
Proof. unfold mset. now rewrite map_lupd, map_lupd, col_mapmap. Qed.
Lemma colswap_mapmap {A B} (f : A -> B) (X : mat A) j k : map (map f) (colswap X j k) = colswap (map (map f) X) j k.
Proof. unfold colswap. now rewrite !map_lupd, !col_mapmap. Qed.

Lemma sp_loop_fold {F} (fp : fpops F) z : forall k (a b : list F) acc s (fa fb : nat -> F),
  k <= length a -> k <= length b ->
  (forall i, i < k -> fa (s + i) = nth i a z /\ fb (s + i) = nth i b z) ->
  sp_loop fp acc a b k = fold_left (fun acc i => faddmul fp acc (fa i) (fb i)) (seq s k) acc.
Proof.
  induction k as [|k IH]; intros a b acc s fa fb Ha Hb H.
  { destruct a, b; reflexivity. }
  cbn [seq fold_left]. destruct a as [|x a]; [cbn in Ha; lia|]. destruct b as [|y b]; [cbn in Hb; lia|].
  destruct (H 0 ltac:(lia)) as [E1 E2]. rewrite Nat.add_0_r in E1, E2. rewrite E1, E2. cbn [nth sp_loop].
  apply IH; [cbn in Ha; lia|cbn in Hb; lia|].
  intros i Hi. destruct (H (S i) ltac:(lia)) as [E3 E4]. cbn [nth] in E3, E4.
  now rewrite <- E3, <- E4, Nat.add_succ_l, Nat.add_succ_r.
Qed.
Lemma scalarprod_spf {F} (fp : fpops F) z (a b : list F) l (fa fb : nat -> F) :
  1 <= l -> l <= length a -> l <= length b ->
  (forall i, i < l -> fa i = nth i a z /\ fb i = nth i b z) -> scalarprod fp a b l = Ok (spf fp fa fb l).
Proof.
  intros Hl Ha Hb H. destruct a as [|x a]; [cbn in Ha; lia|]. destruct b as [|y b]; [cbn in Hb; lia|].
  unfold scalarprod. rewrite (proj2 (Nat.leb_le _ _) Ha), (proj2 (Nat.leb_le _ _) Hb). cbn [guard andb].
  unfold spf. destruct (H 0 ltac:(lia)) as [-> ->]. cbn [nth]. f_equal.
  apply sp_loop_fold with (z := z); [cbn in Ha; lia|cbn in Hb; lia|].
  intros i Hi. destruct (H (1 + i) ltac:(lia)) as [-> ->]. now cbn.
Qed.
