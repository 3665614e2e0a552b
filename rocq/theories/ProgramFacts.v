(** * The generators of the command line: entries *)
From Coq Require Import ZArith Lia List Bool Arith String Ascii.
From Verif Require Import Base Spec Mat MatOps MatOpsFacts Slll LinDep Program.
Import ListNotations.
Local Open Scope nat_scope.

Lemma seq_inv {St} (P : nat -> St -> Prop) (f : nat -> St -> res St) a n s :
  P a s -> (forall k t, a <= k < a + n -> P k t -> exists t', f k t = Ok t' /\ P (S k) t') ->
  exists t, mfold f (seq a n) s = Ok t /\ P (a + n) t.
Proof.
  revert a s. induction n as [|n IH]; intros a s H0 H; cbn [seq mfold].
  - exists s. split; [reflexivity|]. now rewrite Nat.add_0_r.
  - destruct (H a s ltac:(lia) H0) as (t & E & P1). rewrite E. cbn [bind].
    destruct (IH (S a) t P1) as (t' & E' & P'); [intros; apply H; [lia|assumption]|]. exists t'. split; [exact E'|].
    now replace (a + S n) with (S a + n) by lia.
Qed.

(** [M] is the n x d matrix with entries [f] *)
Definition is (M : dmat) (n d : nat) (f : nat -> nat -> Z) : Prop :=
  dwf M /\ dr M = n /\ dc M = d /\ forall i j, i < n -> j < d -> ent M i j = f i j.

Lemma is_ext M n d f g : is M n d f -> (forall i j, i < n -> j < d -> f i j = g i j) -> is M n d g.
Proof. intros (W & H1 & H2 & H3) E. repeat split; auto; try apply W. intros. rewrite H3, E; auto. Qed.

Lemma is_resize0 n d : is (resize0 n d) n d (fun _ _ => 0%Z).
Proof.
  split; [apply resize0_wf|]. split; [reflexivity|]. split; [reflexivity|]. intros i j Hi Hj.
  unfold ent, resize0. cbn [de]. unfold fn. now rewrite mget_mtab.
Qed.

Lemma gset_is M n d f i j x : is M n d f -> i < n -> j < d ->
  exists M', gset M i j x = Ok M' /\ is M' n d (fun a b => if (a =? i) && (b =? j) then x else f a b).
Proof.
  intros (W & H1 & H2 & H3) Hi Hj. destruct (gset_ok M i j x W ltac:(lia) ltac:(lia)) as (M' & E & W' & D1 & D2 & G).
  exists M'. split; [exact E|]. split; [exact W'|]. split; [congruence|]. split; [congruence|].
  intros a b Ha Hb. rewrite G. destruct (_ && _); auto.
Qed.

Lemma gget_is M n d f i j : is M n d f -> i < n -> j < d -> gget M i j = Ok (f i j).
Proof. intros (W & H1 & H2 & H3) Hi Hj. rewrite gget_ok by lia. now rewrite H3. Qed.

Lemma transpose_is M n d f : is M n d f ->
  exists M', transpose_to (resize0 d n) M = Ok M' /\ is M' d n (fun i j => f j i).
Proof.
  intros (W & H1 & H2 & H3). destruct (transpose_to_ok (resize0 d n) M (resize0_wf d n)) as (B & E & WB & D1 & D2 & G & _); cbn; try lia.
  exists B. split; [exact E|]. split; [exact WB|]. split; [exact D1|]. split; [exact D2|]. intros i j Hi Hj. rewrite G by lia. now apply H3.
Qed.

Ltac eqs := repeat match goal with
  | |- context [Nat.eqb ?a ?b] => destruct (Nat.eqb_spec a b)
  | |- context [Nat.ltb ?a ?b] => destruct (Nat.ltb_spec a b)
  | |- context [Nat.leb ?a ?b] => destruct (Nat.leb_spec a b)
  end; cbn [andb orb negb]; try lia; subst; auto; try congruence.

Section G.
Context {D : Type}.
Implicit Types (g : gens D) (o : opts D).

Lemma randb_ok g p i j b : (0 <= b)%Z -> randb g p i j b = Ok (draw g p i j b).
Proof. intros H. unfold randb. apply Z.leb_le in H. now rewrite H. Qed.

(** one row of draws *)
Lemma rand_row g p i d b M n w f : is M n w f -> i < n -> d <= w -> (0 <= b)%Z ->
  exists M', for_ d (fun j M => let* z := randb g p i j b in gset M i j z) M = Ok M' /\
    is M' n w (fun a c => if (a =? i) && (c <? d) then draw g p i c b else f a c).
Proof.
  intros H Hi Hd Hb. unfold for_.
  destruct (seq_inv (fun k N => is N n w (fun a c => if (a =? i) && (c <? k) then draw g p i c b else f a c))
     (fun j M => let* z := randb g p i j b in gset M i j z) 0 d M) as (M' & E & Q).
  - eapply is_ext; [exact H|]. intros. cbv beta. eqs.
  - intros k t Hk Ht. rewrite randb_ok by assumption. cbn [bind].
    destruct (gset_is t n w _ i k (draw g p i k b) Ht Hi ltac:(lia)) as (t' & E & Q). exists t'. split; [exact E|].
    eapply is_ext; [exact Q|]. intros a c Ha Hc. cbv beta. eqs.
  - exists M'. split; [exact E|exact Q].
Qed.

Lemma rand_rows_is g p a b d bits M n w f : is M n w f -> b <= n -> d <= w -> (0 <= bits)%Z ->
  exists M', rand_rows g p a b d bits M = Ok M' /\
    is M' n w (fun i j => if (a <=? i) && (i <? b) && (j <? d) then draw g p i j bits else f i j).
Proof.
  intros H Hn Hd Hb. unfold rand_rows.
  destruct (seq_inv (fun k N => is N n w (fun i j => if (a <=? i) && (i <? k) && (j <? d) then draw g p i j bits else f i j))
     (fun i => for_ d (fun j M => let* z := randb g p i j bits in gset M i j z)) a (b - a) M) as (M' & E & Q).
  - eapply is_ext; [exact H|]. intros. cbv beta. eqs.
  - intros k t Hk Ht. destruct (rand_row g p k d bits t n w _ Ht ltac:(lia) Hd Hb) as (t' & E & Q). exists t'. split; [exact E|].
    eapply is_ext; [exact Q|]. intros i j Hi Hj. cbv beta. eqs.
  - exists M'. split; [exact E|]. eapply is_ext; [exact Q|]. intros i j Hi Hj. cbv beta. eqs.
Qed.

(** ** the shape of what is produced, from a run that ends *)
Definition shape (M M' : dmat) : Prop := dr M' = dr M /\ dc M' = dc M /\ (dwf M -> dwf M').
Lemma shape_refl M : shape M M. Proof. unfold shape. auto. Qed.
Lemma shape_trans A B C : shape A B -> shape B C -> shape A C.
Proof. unfold shape. intros (H1 & H2 & H3) (H4 & H5 & H6). split; [congruence|]. split; [congruence|]. auto. Qed.
Lemma gset_shape M i j x M' : gset M i j x = Ok M' -> shape M M'.
Proof.
  intros H. unfold gset in H. destruct (_ && _) eqn:E; [|discriminate].
  injection H as <-. unfold shape. cbn. split; [reflexivity|]. split; [reflexivity|]. intros W. unfold dwf in *. cbn. now apply wfm_mset.
Qed.
Lemma mfold_shape {A} (f : A -> dmat -> res dmat) l M M' : (forall a N N', f a N = Ok N' -> shape N N') ->
  mfold f l M = Ok M' -> shape M M'.
Proof.
  intros Hf H. apply (mfold_inv (shape M) f l M M'); auto using shape_refl.
  intros a t t' _ Ht E. eapply shape_trans; eauto.
Qed.
Lemma transpose_shape B M M' : transpose_to B M = Ok M' -> shape B M'.
Proof.
  apply mfold_shape. intros i N N'. apply mfold_shape. intros j N1 N1' H. apply bind_Ok in H as (a & _ & H). eapply gset_shape; eauto.
Qed.
Lemma rand_rows_shape g p a b d bits M M' : rand_rows g p a b d bits M = Ok M' -> shape M M'.
Proof.
  apply mfold_shape. intros i N N'. apply mfold_shape. intros j N1 N1' H. apply bind_Ok in H as (z & _ & H). eapply gset_shape; eauto.
Qed.

Lemma nat_of_Ok z k : nat_of z = Ok k -> k = Z.to_nat z /\ (0 <= z)%Z.
Proof. unfold nat_of. intros H. apply guard_Ok in H as [H1 H2]. injection H2 as <-. apply Z.leb_le in H1. auto. Qed.

Lemma generate_shape g o input A n d : generate g o input = Ok (A, n, d) -> dr A = n /\ dc A = d /\ dwf A.
Proof.
  assert (K : forall n d M, shape (resize0 n d) M -> dr M = n /\ dc M = d /\ dwf M).
  { intros n0 d0 M (H1 & H2 & H3). split; [exact H1|]. split; [exact H2|]. apply H3, resize0_wf. }
  intros H. unfold generate in H. cbv zeta in H.
  destruct (_ =? _)%string.
  { apply bind_Ok in H as (k & _ & H). apply bind_Ok in H as (B & HB & H). injection H as <- <- <-.
    apply guard_Ok in HB as [_ HB]. unfold gen_r in HB. apply bind_Ok in HB as (T & _ & HB). apply K. eapply transpose_shape; eauto. }
  destruct (_ =? _)%string.
  { apply bind_Ok in H as (k & _ & H). apply bind_Ok in H as (m & _ & H). apply bind_Ok in H as (B & HB & H). injection H as <- <- <-.
    unfold gen_rb in HB. apply bind_Ok in HB as (T & HT & HB). apply K. eapply shape_trans; [eapply rand_rows_shape; eauto|].
    eapply mfold_shape; [|exact HB]. intros ? ? ? EE; exact (gset_shape _ _ _ _ _ EE). }
  destruct (_ =? _)%string.
  { apply bind_Ok in H as (k & _ & H). apply bind_Ok in H as (m & _ & H). apply bind_Ok in H as (B & HB & H). injection H as <- <- <-.
    apply K. eapply rand_rows_shape; eauto. }
  destruct (_ =? _)%string.
  { apply bind_Ok in H as (k & _ & H). apply bind_Ok in H as (B & HB & H). injection H as <- <- <-.
    unfold gen_dec in HB. apply bind_Ok in HB as (T & HT & HB). apply K. eapply shape_trans; eapply rand_rows_shape; eauto. }
  destruct (_ =? _)%string.
  { apply bind_Ok in H as (k & _ & H). apply bind_Ok in H as (B & HB & H). injection H as <- <- <-.
    apply K. eapply transpose_shape; eauto. }
  destruct (_ =? _)%string.
  { apply bind_Ok in H as (k & _ & H). apply bind_Ok in H as (B & HB & H). injection H as <- <- <-.
    apply guard_Ok in HB as [_ HB]. unfold gen_c in HB. apply bind_Ok in HB as (N & _ & HB). apply bind_Ok in HB as (X & _ & HB).
    apply bind_Ok in HB as ([a A1] & _ & HB). apply bind_Ok in HB as ([b A2] & _ & HB). apply bind_Ok in HB as (A3 & _ & HB).
    apply K. eapply transpose_shape; eauto. }
  destruct (_ || _).
  { apply bind_Ok in H as (k & _ & H). apply bind_Ok in H as (B & HB & H). injection H as <- <- <-. apply K. eapply transpose_shape; eauto. }
  destruct (_ =? _)%string.
  { apply bind_Ok in H as (k & _ & H). apply bind_Ok in H as (B & HB & H). injection H as <- <- <-.
    unfold gen_al in HB. apply bind_Ok in HB as (T & HT & HB). apply bind_Ok in HB as (T2 & HT2 & HB). apply K.
    eapply shape_trans; [eapply mfold_shape; [|exact HT]; intros ? ? ? EE; exact (gset_shape _ _ _ _ _ EE)|].
    eapply shape_trans; [eapply mfold_shape; [|exact HT2]|eapply mfold_shape; [|exact HB]].
    - intros i N N'. apply mfold_shape. intros j N1 N1' E. apply bind_Ok in E as (t & _ & E). apply bind_Ok in E as (r & _ & E). eapply gset_shape; eauto.
    - intros i N N'. apply mfold_shape. intros j N1 N1' E. eapply gset_shape; eauto. }
  destruct (_ =? _)%string; [|discriminate].
  apply bind_Ok in H as (B & HB & H). injection H as <- <- <-. apply K. eapply transpose_shape; eauto.
Qed.

(** ** entries of each generator *)
Lemma gen_intrel_is g bits d : (0 <= bits)%Z ->
  exists M, gen_intrel g bits (resize0 d (d + 1)) = Ok M /\
    is M d (d + 1) (fun i j => if j =? 0 then draw g 0 i 0 bits else if j =? S i then 1%Z else 0%Z).
Proof.
  intros Hb. unfold gen_intrel. cbn [dr dc resize0]. unfold for_ at 1.
  destruct (seq_inv (fun k N => is N d (d + 1) (fun i j => if i <? k then (if j =? 0 then draw g 0 i 0 bits else if j =? S i then 1%Z else 0%Z) else 0%Z))
    (fun i M => let* z := randb g 0 i 0 bits in let* M1 := gset M i 0 z in
       for_ (d + 1 - 1) (fun j M => gset M i (S j) (if j =? i then 1%Z else 0%Z)) M1) 0 d (resize0 d (d + 1))) as (M & E & Q).
  - eapply is_ext; [apply is_resize0|]. intros. cbv beta. eqs.
  - intros k t Hk Ht. rewrite randb_ok by assumption. cbn [bind].
    destruct (gset_is t _ _ _ k 0 (draw g 0 k 0 bits) Ht ltac:(lia) ltac:(lia)) as (t1 & E1 & Q1). rewrite E1. cbn [bind]. unfold for_.
    destruct (seq_inv (fun l N => is N d (d + 1) (fun i j => if i <? k then (if j =? 0 then draw g 0 i 0 bits else if j =? S i then 1%Z else 0%Z)
         else if i =? k then (if j =? 0 then draw g 0 i 0 bits else if (j =? S i) && (j <=? l) then 1%Z else 0%Z) else 0%Z))
      (fun j M => gset M k (S j) (if j =? k then 1%Z else 0%Z)) 0 (d + 1 - 1) t1) as (t2 & E2 & Q2).
    + eapply is_ext; [exact Q1|]. intros i j Hi Hj. cbv beta. eqs.
    + intros l t' Hl Ht'. destruct (gset_is t' _ _ _ k (S l) (if l =? k then 1%Z else 0%Z) Ht' ltac:(lia) ltac:(lia)) as (t2 & E2 & Q2).
      exists t2. split; [exact E2|]. eapply is_ext; [exact Q2|]. intros i j Hi Hj. cbv beta. eqs.
    + exists t2. split; [exact E2|]. eapply is_ext; [exact Q2|]. intros i j Hi Hj. cbv beta. eqs.
  - exists M. split; [exact E|]. eapply is_ext; [exact Q|]. intros i j Hi Hj. cbv beta. eqs.
Qed.

Lemma gen_r_is g bits d : (0 <= bits)%Z ->
  exists A, gen_r g d bits = Ok A /\ is A (d + 1) d (fun i j => if i =? 0 then draw g 0 j 0 bits else if i =? S j then 1%Z else 0%Z).
Proof.
  intros Hb. unfold gen_r. destruct (gen_intrel_is g bits d Hb) as (M & E & Q). rewrite E. cbn [bind]. now apply transpose_is in Q.
Qed.

Lemma gen_rb_is g bits d m : (0 <= bits)%Z -> m <= d ->
  exists A, gen_rb g d m bits = Ok A /\ is A d d (fun i j => if i <? m then draw g 0 i j bits else if i =? j then 1%Z else 0%Z).
Proof.
  intros Hb Hm. unfold gen_rb. destruct (rand_rows_is g 0 0 m d bits _ d d _ (is_resize0 d d) Hm ltac:(lia) Hb) as (M & E & Q).
  rewrite E. cbn [bind].
  destruct (seq_inv (fun k N => is N d d (fun i j => if i <? m then draw g 0 i j bits else if (i =? j) && (i <? k) then 1%Z else 0%Z))
    (fun i M => gset M i i 1%Z) m (d - m) M) as (A & E2 & Q2).
  - eapply is_ext; [exact Q|]. intros i j Hi Hj. cbv beta. eqs.
  - intros k t Hk Ht. destruct (gset_is t _ _ _ k k 1%Z Ht ltac:(lia) ltac:(lia)) as (t2 & E2 & Q2). exists t2. split; [exact E2|].
    eapply is_ext; [exact Q2|]. intros i j Hi Hj. cbv beta. eqs.
  - exists A. split; [exact E2|]. eapply is_ext; [exact Q2|]. intros i j Hi Hj. cbv beta. eqs.
Qed.

Lemma gen_u_is g bits d m : (0 <= bits)%Z ->
  exists A, gen_u g d m bits = Ok A /\ is A m d (fun i j => draw g 0 i j bits).
Proof.
  intros Hb. unfold gen_u. destruct (rand_rows_is g 0 0 m d bits _ m d _ (is_resize0 m d) ltac:(lia) ltac:(lia) Hb) as (M & E & Q).
  exists M. split; [exact E|]. eapply is_ext; [exact Q|]. intros i j Hi Hj. cbv beta. eqs.
Qed.

Lemma gen_dec_is g bits shift d m : (0 <= bits)%Z -> (0 <= bits + shift)%Z -> m <= d ->
  exists A, gen_dec g d m bits shift = Ok A /\
    is A d d (fun i j => if i <? m then draw g 1 i j (bits + shift) else if i =? 0 then 0%Z else draw g 0 i j bits).
Proof.
  intros Hb Hs Hm. unfold gen_dec.
  destruct (rand_rows_is g 0 1 d d bits _ d d _ (is_resize0 d d) ltac:(lia) ltac:(lia) Hb) as (M & E & Q). rewrite E. cbn [bind].
  destruct (rand_rows_is g 1 0 m d (bits + shift) M d d _ Q ltac:(lia) ltac:(lia) Hs) as (M2 & E2 & Q2).
  exists M2. split; [exact E2|]. eapply is_ext; [exact Q2|]. intros i j Hi Hj. cbv beta. eqs.
Qed.

(** *** Coppersmith *)
Lemma rev_inv {St} (P : nat -> St -> Prop) (f : nat -> St -> res St) n s :
  P n s -> (forall k t, k < n -> P (S k) t -> exists t', f k t = Ok t' /\ P k t') ->
  exists t, mfold f (rev (seq 0 n)) s = Ok t /\ P 0 t.
Proof.
  revert s. induction n as [|n IH]; intros s H0 H.
  - exists s. cbn. auto.
  - rewrite seq_S, rev_app_distr. cbn [rev app mfold Nat.add]. destruct (H n s ltac:(lia) H0) as (t & E & P1). rewrite E. cbn [bind].
    apply IH; auto.
Qed.

Lemma copp_N_is h N : exists tz M, copp_N h N (resize0 (3 * h) (3 * h)) = Ok (tz, M) /\
  is M (3 * h) (3 * h) (fun i j => if i =? j then (N ^ Z.of_nat (h - 1 - i / 3))%Z else 0%Z).
Proof.
  unfold copp_N.
  destruct (rev_inv (fun k (st : Z * dmat) => fst st = (N ^ Z.of_nat (h - k))%Z /\
      is (snd st) (3 * h) (3 * h) (fun i j => if (i =? j) && (k <=? i / 3) then (N ^ Z.of_nat (h - 1 - i / 3))%Z else 0%Z))
    (fun i (st : Z * dmat) => let '(tz, M) := st in
       let* M1 := for_ 3 (fun k M => gset M (i * 3 + k) (i * 3 + k) tz) M in Ok ((tz * N)%Z, M1)) h (1%Z, resize0 (3 * h) (3 * h))) as ([tz M] & E & Q0 & Q).
  - cbn [fst snd]. rewrite Nat.sub_diag. split; [reflexivity|]. eapply is_ext; [apply is_resize0|]. intros i j Hi Hj. cbv beta.
    assert (i / 3 < h) by (apply Nat.div_lt_upper_bound; lia). eqs.
  - intros k [tz M] Hk (H0 & H1). cbn [fst snd] in *. unfold for_.
    destruct (seq_inv (fun l T => is T (3 * h) (3 * h) (fun i j => if (i =? j) && ((S k <=? i / 3) || ((3 * k <=? i) && (i <? 3 * k + l)))
        then (N ^ Z.of_nat (h - 1 - i / 3))%Z else 0%Z))
      (fun l M => gset M (k * 3 + l) (k * 3 + l) tz) 0 3 M) as (M1 & E1 & Q1).
    + eapply is_ext; [exact H1|]. intros i j Hi Hj. cbv beta. eqs.
    + intros l t Hl Ht. destruct (gset_is t _ _ _ (k * 3 + l) (k * 3 + l) tz Ht ltac:(lia) ltac:(lia)) as (t2 & E2 & Q2).
      exists t2. split; [exact E2|]. eapply is_ext; [exact Q2|]. intros i j Hi Hj. cbv beta. rewrite H0.
      assert (D3 : (k * 3 + l) / 3 = k) by (rewrite Nat.div_add_l by lia; rewrite (Nat.div_small l 3) by lia; lia).
      destruct (Nat.eqb_spec i (k * 3 + l)) as [->|]; [|eqs].
      destruct (Nat.eqb_spec j (k * 3 + l)) as [->|]; [|eqs]. rewrite D3, Nat.eqb_refl. cbn [andb].
      replace (h - 1 - k) with (h - S k) by lia. eqs.
    + rewrite E1. cbn [bind]. eexists. split; [reflexivity|]. cbn [fst snd]. split.
      * rewrite H0. replace (Z.of_nat (h - k)) with (Z.of_nat (h - S k) + 1)%Z by lia. rewrite Z.pow_add_r by lia. lia.
      * eapply is_ext; [exact Q1|]. intros i j Hi Hj. cbv beta.
        pose proof (Nat.div_mod i 3 ltac:(lia)). pose proof (Nat.mod_upper_bound i 3 ltac:(lia)). eqs.
  - exists tz, M. split; [exact E|]. cbn [snd] in Q. eapply is_ext; [exact Q|]. intros i j Hi Hj. cbv beta. eqs.
Qed.

Lemma copp_X_is n X M f : is M n n f ->
  exists tz M', copp_X n X M = Ok (tz, M') /\ is M' n n (fun i j => if i =? j then (f i i * X ^ Z.of_nat i)%Z else f i j).
Proof.
  intros H. unfold copp_X, for_.
  destruct (seq_inv (fun k (st : Z * dmat) => fst st = (X ^ Z.of_nat k)%Z /\
      is (snd st) n n (fun i j => if (i =? j) && (i <? k) then (f i i * X ^ Z.of_nat i)%Z else f i j))
    (fun i (st : Z * dmat) => let '(tz, M) := st in
      let* a := gget M i i in let* M1 := gset M i i (a * tz)%Z in Ok ((tz * X)%Z, M1)) 0 n (1%Z, M)) as ([tz M'] & E & Q0 & Q).
  - cbn [fst snd]. split; [reflexivity|]. eapply is_ext; [exact H|]. intros i j Hi Hj. cbv beta. eqs.
  - intros k [tz t] Hk (H0 & H1). cbn [fst snd] in *. rewrite (gget_is t n n _ k k H1) by lia. cbn [bind].
    match goal with |- context [gset t k k ?x] => destruct (gset_is t _ _ _ k k x H1 ltac:(lia) ltac:(lia)) as (t2 & E2 & Q2) end.
    rewrite E2. cbn [bind]. eexists. split; [reflexivity|]. cbn [fst snd]. split.
    + rewrite H0. replace (Z.of_nat (S k)) with (Z.of_nat k + 1)%Z by lia. rewrite Z.pow_add_r by lia. lia.
    + eapply is_ext; [exact Q2|]. intros i j Hi Hj. cbv beta. rewrite H0. eqs.
  - exists tz, M'. split; [exact E|]. cbn [snd] in Q. eapply is_ext; [exact Q|]. intros i j Hi Hj. cbv beta. eqs.
Qed.

Lemma size_in_bits_pos z : (0 <= size_in_bits z)%Z.
Proof. unfold size_in_bits. destruct (z =? 0)%Z; [lia|]. pose proof (Z.log2_nonneg (Z.abs z)). lia. Qed.

Lemma copp_low_is g n M f : is M n n f ->
  exists M', copp_low g n M = Ok M' /\
    is M' n n (fun i j => if j <? i then draw g 2 j i (size_in_bits (f j j) + 20) else f i j).
Proof.
  intros H. unfold copp_low, for_.
  destruct (seq_inv (fun k T => is T n n (fun i j => if (j <? i) && (j <? k) then draw g 2 j i (size_in_bits (f j j) + 20) else f i j))
    (fun i => mfold (fun j M => let* a := gget M i i in let* z := randb g 2 i j (size_in_bits a + 20) in gset M j i z)
                    (seq (i + 1) (n - (i + 1)))) 0 n M) as (M' & E & Q).
  - eapply is_ext; [exact H|]. intros i j Hi Hj. cbv beta. eqs.
  - intros k t Hk Ht.
    destruct (seq_inv (fun l T => is T n n (fun i j => if (j <? i) && ((j <? k) || ((j =? k) && (i <? l))) then draw g 2 j i (size_in_bits (f j j) + 20) else f i j))
      (fun j M => let* a := gget M k k in let* z := randb g 2 k j (size_in_bits a + 20) in gset M j k z) (k + 1) (n - (k + 1)) t) as (t1 & E1 & Q1).
    + eapply is_ext; [exact Ht|]. intros i j Hi Hj. cbv beta. eqs.
    + intros l u Hl Hu. rewrite (gget_is u n n _ k k Hu) by lia. cbn [bind]. rewrite Nat.ltb_irrefl. cbn [andb].
      rewrite randb_ok by (pose proof (size_in_bits_pos (f k k)); lia). cbn [bind].
      match goal with |- context [gset u l k ?x] => destruct (gset_is u _ _ _ l k x Hu ltac:(lia) ltac:(lia)) as (t2 & E2 & Q2) end.
      exists t2. split; [exact E2|]. eapply is_ext; [exact Q2|]. intros i j Hi Hj. cbv beta. eqs.
    + exists t1. split; [exact E1|]. eapply is_ext; [exact Q1|]. intros i j Hi Hj. cbv beta. eqs.
  - exists M'. split; [exact E|]. eapply is_ext; [exact Q|]. intros i j Hi Hj. cbv beta. eqs.
Qed.

Definition copp_diag (h : nat) (N X : Z) (i : nat) : Z := (N ^ Z.of_nat (h - 1 - i / 3) * X ^ Z.of_nat i)%Z.

Lemma gen_c_is g h sN sX : (0 <= sN)%Z -> (0 <= sX)%Z ->
  let N := draw g 0 0 0 sN in let X := draw g 1 0 0 sX in
  exists A, gen_c g h sN sX = Ok A /\
    is A (3 * h) (3 * h) (fun i j => if i <? j then draw g 2 i j (size_in_bits (copp_diag h N X i) + 20)
                                     else if i =? j then copp_diag h N X i else 0%Z).
Proof.
  intros HN HX N X. unfold gen_c. cbv zeta. rewrite !randb_ok by assumption. cbn [bind]. fold N X.
  destruct (copp_N_is h N) as (t1 & A1 & E1 & Q1). rewrite E1. cbn [bind].
  destruct (copp_X_is (3 * h) X A1 _ Q1) as (t2 & A2 & E2 & Q2). rewrite E2. cbn [bind].
  destruct (copp_low_is g (3 * h) A2 _ Q2) as (A3 & E3 & Q3). rewrite E3. cbn [bind].
  destruct (transpose_is _ _ _ _ Q3) as (A & E & Q). exists A. split; [exact E|].
  eapply is_ext; [exact Q|]. intros i j Hi Hj. cbv beta. rewrite !Nat.eqb_refl. unfold copp_diag.
  destruct (Nat.ltb_spec i j); [reflexivity|]. destruct (Nat.eqb_spec j i) as [->|]; [now rewrite Nat.eqb_refl|].
  destruct (Nat.eqb_spec i j); [lia|reflexivity].
Qed.

(** *** alpha *)
Lemma gen_al_is g d alpha :
  exists A, gen_al g d alpha = Ok A /\
    is A d d (fun i j => if i =? j then al_diag g alpha (d - i)
                         else if i <? j then al_off g (draw g 0 i j 20) (al_diag g alpha (d - i)) else 0%Z).
Proof.
  unfold gen_al. unfold for_ at 1.
  destruct (seq_inv (fun k T => is T d d (fun i j => if (i =? j) && (d - k <=? i) then al_diag g alpha (d - i) else 0%Z))
    (fun k M => gset M (d - 1 - k) (d - 1 - k) (al_diag g alpha (S k))) 0 d (resize0 d d)) as (B1 & E1 & Q1).
  - eapply is_ext; [apply is_resize0|]. intros i j Hi Hj. cbv beta. eqs.
  - intros k t Hk Ht. destruct (gset_is t _ _ _ (d - 1 - k) (d - 1 - k) (al_diag g alpha (S k)) Ht ltac:(lia) ltac:(lia)) as (t2 & E2 & Q2).
    exists t2. split; [exact E2|]. eapply is_ext; [exact Q2|]. intros i j Hi Hj. cbv beta.
    destruct (Nat.eqb_spec i (d - 1 - k)) as [->|]; [|eqs].
    destruct (Nat.eqb_spec j (d - 1 - k)) as [->|]; [|eqs]. rewrite Nat.eqb_refl. cbn [andb].
    replace (d - (d - 1 - k)) with (S k) by lia. eqs.
  - rewrite E1. cbn [bind]. unfold for_ at 1.
    destruct (seq_inv (fun k T => is T d d (fun i j => if i =? j then al_diag g alpha (d - i)
                         else if (i <? j) && (i <? k) then al_off g (draw g 0 i j 20) (al_diag g alpha (d - i)) else 0%Z))
      (fun i => mfold (fun j M => let* t := gget M i i in let* r := randb g 0 i j 20 in gset M i j (al_off g r t)) (seq (i + 1) (d - (i + 1))))
      0 d B1) as (B2 & E2 & Q2).
    + eapply is_ext; [exact Q1|]. intros i j Hi Hj. cbv beta. eqs.
    + intros k t Hk Ht.
      destruct (seq_inv (fun l T => is T d d (fun i j => if i =? j then al_diag g alpha (d - i)
                         else if (i <? j) && ((i <? k) || ((i =? k) && (j <? l))) then al_off g (draw g 0 i j 20) (al_diag g alpha (d - i)) else 0%Z))
        (fun j M => let* t := gget M k k in let* r := randb g 0 k j 20 in gset M k j (al_off g r t)) (k + 1) (d - (k + 1)) t) as (t1 & E3 & Q3).
      * eapply is_ext; [exact Ht|]. intros i j Hi Hj. cbv beta. eqs.
      * intros l u Hl Hu. rewrite (gget_is u d d _ k k Hu) by lia. cbn [bind]. rewrite Nat.eqb_refl. cbn [andb].
        rewrite randb_ok by lia. cbn [bind].
        match goal with |- context [gset u k l ?x] => destruct (gset_is u _ _ _ k l x Hu ltac:(lia) ltac:(lia)) as (t2 & E4 & Q4) end.
        exists t2. split; [exact E4|]. eapply is_ext; [exact Q4|]. intros i j Hi Hj. cbv beta. eqs.
      * exists t1. split; [exact E3|]. eapply is_ext; [exact Q3|]. intros i j Hi Hj. cbv beta. eqs.
    + rewrite E2. cbn [bind]. unfold for_ at 1.
      destruct (seq_inv (fun k T => is T d d (fun i j => if i =? j then al_diag g alpha (d - i)
                         else if i <? j then al_off g (draw g 0 i j 20) (al_diag g alpha (d - i)) else 0%Z))
        (fun i => for_ i (fun j M => gset M i j 0%Z)) 0 d B2) as (B3 & E3 & Q3).
      * eapply is_ext; [exact Q2|]. intros i j Hi Hj. cbv beta. eqs.
      * intros k t Hk Ht. unfold for_.
        destruct (seq_inv (fun l T => is T d d (fun i j => if i =? j then al_diag g alpha (d - i)
                         else if i <? j then al_off g (draw g 0 i j 20) (al_diag g alpha (d - i)) else 0%Z))
          (fun j M => gset M k j 0%Z) 0 k t) as (t1 & E4 & Q4).
        -- eapply is_ext; [exact Ht|]. intros i j Hi Hj. reflexivity.
        -- intros l u Hl Hu. destruct (gset_is u _ _ _ k l 0%Z Hu ltac:(lia) ltac:(lia)) as (t2 & E5 & Q5).
           exists t2. split; [exact E5|]. eapply is_ext; [exact Q5|]. intros i j Hi Hj. cbv beta. eqs.
        -- exists t1. split; [exact E4|]. exact Q4.
      * exists B3. split; [exact E3|]. exact Q3.
Qed.
End G.

(** ** independence *)

(** upper triangular in the first d rows, nonzero diagonal *)
Lemma triangular_indep n d A : d <= n -> (forall i j, i < n -> j < d -> j < i -> A i j = 0%Z) -> (forall j, j < d -> A j j <> 0%Z) ->
  independent n d A.
Proof.
  intros Hd HT HD c Hc.
  assert (G : forall k j, j < d -> d <= j + k -> c j = 0%Z).
  { induction k as [|k IH]; intros j Hj Hk; [lia|].
    pose proof (Hc j ltac:(lia)) as E. rewrite (sumZ_single d j) in E; [|exact Hj|].
    - pose proof (HD j Hj). nia.
    - intros l Hl Hlj. destruct (Nat.lt_ge_cases l j).
      + rewrite HT by lia. lia.
      + rewrite (IH l) by lia. lia. }
  intros j Hj. apply (G d); lia.
Qed.

(** a zero on the diagonal of a square upper triangular matrix: dependent *)
Lemma triangular_dep d A p : p < d -> (forall i j, i < d -> j < d -> j < i -> A i j = 0%Z) -> A p p = 0%Z -> ~ independent d d A.
Proof.
  intros Hp HT H0 HI.
  destruct (dependent p (p + 1) A ltac:(lia)) as (c & (j0 & Hj0 & Nz) & Hc).
  assert (K : forall i, i < d -> sumZ d (fun j => (A i j * (if (j <=? p)%nat then c j else 0))%Z) = 0%Z).
  { intros i Hi. replace (sumZ d) with (sumZ ((p + 1) + (d - (p + 1)))) by (f_equal; lia). rewrite sumZ_split.
    rewrite (sumZ_0 (d - (p + 1))) by (intros l Hl; cbv beta; destruct (Nat.leb_spec (p + 1 + l) p); lia).
    rewrite Z.add_0_r. destruct (Nat.lt_ge_cases i p) as [H|H].
    - rewrite <- (Hc i H). apply sumZ_ext. intros j Hj. destruct (Nat.leb_spec j p); [reflexivity|lia].
    - apply sumZ_0. intros j Hj. destruct (Nat.leb_spec j p); [|lia].
      destruct (Nat.eq_dec i j); [subst; replace j with p by lia; rewrite H0; lia|rewrite HT by lia; lia]. }
  specialize (HI _ K j0 ltac:(lia)). cbv beta in HI. destruct (Nat.leb_spec j0 p); [auto|lia].
Qed.
