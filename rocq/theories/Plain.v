(** * The plain class [matrix<FP_NR<FT> >] as an instance of HlllM.v

    The operations of mat.h that hlll.cc applies to R, Rkept, V, Bfp, with the scalar
    operations [fp] of FP.v; an access outside the n x d matrix is undefined.
    Line numbers: /repo/src/mat.h. *)
From Coq Require Import ZArith Lia List Bool Arith.
From Verif Require Import Base Spec Mat FP Hlll HlllM Safety Sim.
Import ListNotations.
Local Open Scope nat_scope.

Section Plain.
Context {F : Type} (fp : fpops F) (n d : nat).
Notation fz := (fzero fp).

(** FP_NR<FT>: no operation is undefined *)
Definition plain_sops : sops F :=
  mk_sops F fz (fone fp) (f01 fp) (f001 fp) (feps fp)
    (fun a b => Ok (fadd fp a b)) (fun a b => Ok (fmul fp a b)) (fun a b => Ok (fdiv fp a b))
    (fneg fp) (fabs fp) (fun a => Ok (fsqrt fp a)) (fun a => Ok (frnd fp a))
    (fun r a b => Ok (fsubmul fp r a b))
    (fle fp fz) (fle fp) (flt fp) (fcmp1 fp)
    (fun a => Ok (fnz fp a)) (fun a => Ok (fgse fp a)) (fun a => Ok (fset_f fp a)).

(** column j becomes f(0), ..., f(n-1) *)
Definition pl_col (j : nat) (f : nat -> F) (A : mat F) : mat F := lupd A j (map f (seq 0 n)).

(** get 137-150, set 156-170 *)
Definition pl_get (A : mat F) (i j : nat) : res F := guard ((i <? n) && (j <? d)) (Ok (mget fz A i j)).
Definition pl_set (i j : nat) (x : F) (A : mat F) : res (mat F) :=
  guard ((i <? n) && (j <? d)) (Ok (pl_col j (fun k => if k =? i then x else mget fz A k j) A)).
(** setcol(j,b,0,l) 195-200, setcol(j,w,l) 179-184 *)
Definition pl_setcol (j : nat) (w : nat -> F) (l : nat) (A : mat F) : res (mat F) :=
  guard ((j <? d) && (l <=? n)) (Ok (pl_col j (fun k => if k <? l then w k else mget fz A k j) A)).
Definition pl_setcolz (j : nat) (b : list Z) := pl_setcol j (fun i => fset_z fp (nth i b 0%Z)).
Definition pl_setcolf (j : nat) (t : list F) (l : nat) (A : mat F) : res (mat F) :=
  guard (l <=? length t) (pl_setcol j (fun i => nth i t fz) l A).
Definition pl_copycol (j : nat) (W : mat F) (jw l : nat) (A : mat F) : res (mat F) :=
  guard (jw <? d) (pl_setcol j (fun i => mget fz W i jw) l A).
(** scalarprod 986-993, fp_norm_sq 977-983, fp_norm 964-973: the first terms are read
    whatever the length; the old value is not used *)
Definition pl_dot (V : mat F) (jv kv : nat) (W : mat F) (jw kw : nat) (len : Z) (old : F) : res F :=
  guard ((jv <? d) && (jw <? d) && (0 <? len)%Z && (kv + Z.to_nat len <=? n) && (kw + Z.to_nat len <=? n))
    (Ok (fold_left (fun nn i => faddmul fp nn (mget fz V (kv + i) jv) (mget fz W (kw + i) jw))
           (seq 1 (Z.to_nat len - 1)) (fmul fp (mget fz V (kv + 0) jv) (mget fz W (kw + 0) jw)))).
Definition pl_norm2 (V : mat F) (jv kv : nat) := pl_dot V jv kv V jv kv.
Definition pl_norm (V : mat F) (jv kv : nat) (len : Z) (old : F) : res F :=
  let* q := pl_norm2 V jv kv len old in Ok (fsqrt fp q).
(** fmasub 449-460, div 463-469 *)
Definition pl_fmasub (j k : nat) (W : mat F) (jw kw : nat) (Zm : mat F) (jz kz : nat) (a : F) (l : nat) (A : mat F) : res (mat F) :=
  guard ((j <? d) && (jw <? d) && (jz <? d) && (k + l <=? n) && (kw + l <=? n) && (kz + l <=? n))
    (Ok (pl_col j (fun i => if (k <=? i) && (i <? k + l)
                            then fsubmul fp (mget fz W (kw + (i - k)) jw) (mget fz Zm (kz + (i - k)) jz) a
                            else mget fz A i j) A)).
Definition pl_div (j k : nat) (W : mat F) (jw kw : nat) (a : F) (len : Z) (A : mat F) : res (mat F) :=
  guard ((j <? d) && (jw <? d) && (k + Z.to_nat len <=? n) && (kw + Z.to_nat len <=? n))
    (Ok (pl_col j (fun i => if (k <=? i) && (i <? k + Z.to_nat len)
                            then fdiv fp (mget fz W (kw + (i - k)) jw) a else mget fz A i j) A)).
(** subcol 321-331, addcol 309-318, submulcol 358-366 *)
Definition pl_colop (f : F -> F -> F) (j k l : nat) (A : mat F) : res (mat F) :=
  guard ((j <? d) && (k <? d) && (l <=? n))
    (Ok (pl_col j (fun i => if i <? l then f (mget fz A i j) (mget fz A i k) else mget fz A i j) A)).
(** colswap 301-305 *)
Definition pl_colswap (j k : nat) (A : mat F) : res (mat F) := guard ((j <? d) && (k <? d)) (Ok (colswap A j k)).

Definition plain_ops : mops F (mat F) :=
  mk_mops F (mat F) pl_get pl_get pl_set (fun i j => pl_set i j fz) pl_setcolz pl_setcolf pl_copycol pl_dot pl_norm2 pl_norm
    pl_fmasub pl_div (pl_colop (fsub fp)) (pl_colop (fadd fp)) (fun j k a => pl_colop (fun x y => fsubmul fp x a y) j k)
    pl_colswap.

(** the laws of Sim.v: scalars and entries stand for themselves *)
Lemma plain_slaws : slaws fp plain_sops (fun x => x).
Proof. split; cbn; intros; try reflexivity; eexists; split; reflexivity. Qed.

Lemma pl_col_wf j f A : wfm n d A -> wfm n d (pl_col j f A).
Proof. intros W. apply wfm_lupd; [exact W|]. now rewrite map_length, seq_length. Qed.
Lemma pl_col_get j f A i : wfm n d A -> j < d -> i < n -> mget fz (pl_col j f A) i j = f i.
Proof.
  intros [L _] Hj Hi. unfold pl_col, mget. rewrite col_lupd_eq by lia. now rewrite nth_map_seq.
Qed.
Lemma pl_col_keeps j f A : keeps (fun M i j => mget fz M i j) n d j A (pl_col j f A).
Proof. intros i j' _ _ N. unfold pl_col, mget. now rewrite col_lupd_neq. Qed.

Lemma guard_true {A} b (m : res A) : b = true -> guard b m = m.
Proof. intros ->. reflexivity. Qed.
Local Ltac ifs := repeat match goal with
  | |- context [?a <? ?b] => destruct (Nat.ltb_spec a b); try lia
  | |- context [?a <=? ?b] => destruct (Nat.leb_spec a b); try lia end; cbn [andb].
Local Ltac bl := repeat (apply andb_true_iff; split); rewrite ?Nat.ltb_lt, ?Nat.leb_le, ?Z.ltb_lt; lia.
Local Ltac colcase :=
  rewrite guard_true by bl; eexists; split; [reflexivity|]; split; [now apply pl_col_wf|]; split; [apply pl_col_keeps|].

Lemma plain_mlaws : mlaws fp plain_sops plain_ops (fun x => x) (fun M i j => mget fz M i j) (wfm n d) n d.
Proof.
  assert (DOT : forall V jv kv W jw kw len old, jv < d -> jw < d -> 1 <= len -> kv + len <= n -> kw + len <= n ->
     pl_dot V jv kv W jw kw (Z.of_nat len) old = Ok (spf fp (fun i => mget fz V (kv + i) jv) (fun i => mget fz W (kw + i) jw) len)).
  { intros. unfold pl_dot. rewrite Nat2Z.id. rewrite guard_true by bl. reflexivity. }
  split; unfold plain_ops, plain_sops; cbn [m_get m_getnn m_set m_set0 m_setcolz m_setcolf m_copycol m_dot m_norm2 m_norm m_fmasub m_div m_subcol m_addcol m_submulcol m_colswap s_zero].
  - intros A i j W Hi Hj. unfold pl_get. rewrite guard_true by bl. eexists. split; reflexivity.
  - intros A i j W Hi Hj. unfold pl_get. rewrite guard_true by bl. eexists. split; reflexivity.
  - intros A i j x W Hi Hj. unfold pl_set. colcase. intros k Hk. now rewrite pl_col_get.
  - intros A i j W Hi Hj. unfold pl_set. colcase. intros k Hk. now rewrite pl_col_get.
  - intros A j b l W Hj Hl. unfold pl_setcolz, pl_setcol. colcase. split.
    + intros i Hi. rewrite pl_col_get by (auto; lia). ifs; reflexivity.
    + intros i Hi E. rewrite pl_col_get by (auto; lia). ifs. exact E.
  - intros A j t l W Hj Hl Ht. unfold pl_setcolf, pl_setcol. rewrite guard_true by bl. colcase.
    intros i Hi. rewrite pl_col_get by (auto; lia). ifs; reflexivity.
  - intros A j Wm jw l W W2 Hj Hjw Hl. unfold pl_copycol, pl_setcol. rewrite guard_true by bl. colcase.
    intros i Hi. rewrite pl_col_get by (auto; lia). ifs; reflexivity.
  - intros. rewrite DOT by assumption. eexists. split; reflexivity.
  - intros. unfold pl_norm2. rewrite DOT by assumption. eexists. split; reflexivity.
  - intros. unfold pl_norm, pl_norm2. rewrite DOT by assumption. eexists. split; reflexivity.
  - intros A j k Wm jw kw Zm jz kz a l W W2 W3 Hj Hjw Hjz Hl H1 H2 H3. unfold pl_fmasub. colcase.
    intros i Hi. rewrite pl_col_get by (auto; lia). ifs. now replace (k + i - k) with i by lia.
  - intros A j k Wm jw kw a len W W2 Hj Hjw H1 H2. unfold pl_div. rewrite Nat2Z.id. colcase.
    intros i Hi. rewrite pl_col_get by (auto; lia). ifs. now replace (k + i - k) with i by lia.
  - intros A j k l W Hj Hk N Hl. unfold pl_colop. colcase. intros i Hi. rewrite pl_col_get by (auto; lia). ifs; reflexivity.
  - intros A j k l W Hj Hk N Hl. unfold pl_colop. colcase. intros i Hi. rewrite pl_col_get by (auto; lia). ifs; reflexivity.
  - intros A j k a l W Hj Hk N Hl. unfold pl_colop. colcase. intros i Hi. rewrite pl_col_get by (auto; lia). ifs; reflexivity.
  - intros A j k W Hj Hk. unfold pl_colswap. rewrite guard_true by bl. eexists. split; [reflexivity|].
    split; [now apply wfm_colswap|]. intros i c Hi Hc. unfold mget. now rewrite (col_colswap n d) by assumption.
Qed.
End Plain.
