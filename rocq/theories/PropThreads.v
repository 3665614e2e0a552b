(** * C74: the number of threads and the TRANSFORM flag change neither what hlll returns
    nor the basis it computes

    [run] (Object.v) executes a list of calls of the public interface on one object.
    Two histories that differ only in their set_num_S calls, on two objects built from
    the same matrix, one with the transformation and the other without it: same outcome,
    same returned values, same basis, same R, same counters, for any floating-point
    arithmetic whose conversions to integers are exact integers (expo_nonneg). *)
From Coq Require Import ZArith Lia Reals Lra List Bool Arith Floats.
From Verif Require Import Base Spec Mat FP Hlll Hlll2 IntSteps HlllInt Structure Object Cache3 Cache7 Counters SpecReal Exact ExactPot
  ExactTop PropExact Double Examples Threads.
Import ListNotations.

(** the same calls, those of set_num_S left out *)
Definition other_calls {F} (qs : list (call (F := F))) : list (call (F := F)) :=
  filter (fun q => match q with CallSetNumS _ _ => false | _ => true end) qs.

(** set_num_S is called with at least one thread; with SEYSEN only with one *)
Definition threads_ok {F} (m : Z) (qs : list (call (F := F))) : Prop :=
  forall nS thr, In (CallSetNumS nS thr) qs -> 1 <= nS /\ (nS = 1 \/ (m < 1)%Z).

Theorem C74_threads_and_transform :
  forall {F} (fp : fpops F), expo_nonneg fp ->
  forall J n d A u u' m lg vd qs qs',
    precisions_ok qs -> precisions_ok qs' -> threads_ok m qs -> threads_ok m qs' -> other_calls qs = other_calls qs' ->
    match run fp qs (new_lattice fp J n d A u m lg vd), run fp qs' (new_lattice fp J n d A u' m lg vd) with
    | Ok L, Ok L' =>
        getbase L = getbase L' /\ (forall junk, getR fp junk L = getR fp junk L') /\ lc L = lc L' /\
        (forall fuel delta verbose junk,
          match hlll fp fuel delta verbose junk L, hlll fp fuel delta verbose junk L' with
          | Ok (r, M), Ok (r', M') => r = r' /\ getbase M = getbase M'
          | UB, UB | NoFuel, NoFuel => True
          | _, _ => False
          end) /\
        (forall fp' fuel delta junk J1 J2, expo_nonneg fp' ->
          match isreduced fp' fuel delta junk J1 J2 L, isreduced fp' fuel delta junk J1 J2 L' with
          | Ok (r, st, M), Ok (r', st', M') => r = r' /\ st = st' /\ getbase M = getbase M'
          | UB, UB | NoFuel, NoFuel => True
          | _, _ => False
          end)
    | UB, UB | NoFuel, NoFuel => True
    | _, _ => False
    end.
Proof.
  intros F fp EX J n d A u u' m lg vd qs qs' PR PR' TH TH' E.
  destruct (new_alike fp J n d A u m lg vd) as (L0 & AL). destruct (AL u') as (AL1 & AL2).
  pose proof (run_plain fp EX qs PR (new_lattice fp J n d A u m lg vd) L0 TH AL1) as R1. pose proof (run_plain fp EX qs' PR' (new_lattice fp J n d A u' m lg vd) L0 TH' AL2) as R2.
  change (filter not_threads qs) with (other_calls qs) in R1. change (filter not_threads qs') with (other_calls qs') in R2. rewrite <- E in R2.
  pose proof (rsim_join _ _ _ _ R1 R2) as R. clear R1 R2 AL AL1 AL2 E.
  assert (GB : forall (a b z : lattice F), alike a z -> alike b z -> getbase a = getbase b).
  { intros a b z (A1 & (A2 & _) & _) (B1 & (B2 & _) & _). unfold getbase. rewrite A2, B2.
    assert (C : plain (lcfg a) = plain (lcfg b)) by congruence. unfold plain in C. injection C as -> -> _ _ _ _. reflexivity. }
  destruct (run fp qs _) as [L| |], (run fp qs' _) as [L'| |]; cbn [rsim] in R; auto.
  destruct R as (z & Z1 & Z2). split; [now apply GB with z|].
  assert (C : plain (lcfg L) = plain (lcfg L')) by (destruct Z1 as (Z1 & _), Z2 as (Z2 & _); congruence).
  pose proof Z1 as Z1'. pose proof Z2 as Z2'.
  destruct Z1 as (A1 & A2 & A3 & A4 & A5). destruct Z2 as (B1 & B2 & B3 & B4 & B5).
  split; [|split; [congruence|split]].
  - intros junk. unfold getR. rewrite A3, B3. unfold plain in C. injection C as -> -> _ _ _ _. reflexivity.
  - intros fuel delta vb jk. pose proof (rsim_join _ _ _ _ (hlll_plain fp fuel delta vb jk L z EX Z1') (hlll_plain fp fuel delta vb jk L' z EX Z2')) as H.
    destruct (hlll fp fuel delta vb jk L) as [[r M]| |], (hlll fp fuel delta vb jk L') as [[r' M']| |]; cbn [rsim] in H; auto.
    destruct H as ([x y] & (H1 & H2) & (H3 & H4)). cbn [fst snd] in *. split; [congruence|now apply GB with y].
  - intros fp' fuel delta jk J1 J2 EX'.
    pose proof (rsim_join _ _ _ _ (isreduced_plain fp' fuel delta jk J1 J2 L z EX' Z1') (isreduced_plain fp' fuel delta jk J1 J2 L' z EX' Z2')) as H.
    destruct (isreduced fp' fuel delta jk J1 J2 L) as [[[r st] M]| |], (isreduced fp' fuel delta jk J1 J2 L') as [[[r' st'] M']| |]; cbn [rsim] in H; auto.
    destruct H as ([x y] & (H1 & H2) & (H3 & H4)). cbn [fst snd] in *. split; [congruence|]. split; [congruence|now apply GB with y].
Qed.

(** the exact-arithmetic results with any number of threads *)
Lemma parallel_as_one (fp : fpops R) (X : exact fp) J n d A u m lg vd nS thr nb fuel delta vb junk : 1 <= nS -> (m < 1)%Z ->
  match hlll fp fuel delta vb junk (fresh_object fp J n d A u m lg vd nS thr nb),
        hlll fp fuel delta vb junk (fresh_object fp J n d A u m lg vd 1 thr nb) with
  | Ok (r, M), Ok (r', M') => r = r' /\ getbase M = getbase M' /\ (forall junk, getR fp junk M = getR fp junk M') /\ lc M = lc M'
  | UB, UB | NoFuel, NoFuel => True
  | _, _ => False
  end.
Proof.
  intros Hn Hm. destruct (new_alike fp J n d A u m lg vd) as (L0 & AL). destruct (AL u) as (AL1 & _).
  assert (Q : forall k, 1 <= k -> alike (fresh_object fp J n d A u m lg vd k thr nb) (set_nblov_max nb L0)).
  { intros k Hk. pose proof (run_plain fp (e_expo fp X) [CallSetNumS k thr; CallSetNblovMax nb]) as P.
    specialize (P ltac:(intros ? ? ? ? ? ? [H|[H|[]]]; discriminate) (new_lattice fp J n d A u m lg vd) L0). cbn [filter not_threads] in P. unfold run in P. cbn [mfold exec bind rsim] in P.
    apply P; [|exact AL1]. intros a b [H|[H|[]]]; [|discriminate]. injection H as -> ->. split; [exact Hk|now right]. }
  pose proof (rsim_join _ _ _ _ (hlll_plain fp fuel delta vb junk _ _ (e_expo fp X) (Q nS Hn)) (hlll_plain fp fuel delta vb junk _ _ (e_expo fp X) (Q 1 (le_n 1)))) as H.
  destruct (hlll fp fuel delta vb junk (fresh_object fp J n d A u m lg vd nS thr nb)) as [[r M]| |],
    (hlll fp fuel delta vb junk (fresh_object fp J n d A u m lg vd 1 thr nb)) as [[r' M']| |]; cbn [rsim] in H; auto.
  destruct H as ([x y] & (H1 & Z1) & (H3 & Z2)). cbn [fst snd] in *. split; [congruence|].
  assert (C : plain (lcfg M) = plain (lcfg M')) by (destruct Z1 as (Z1 & _), Z2 as (Z2 & _); congruence).
  destruct Z1 as (A1 & (A2 & _) & A3 & A4 & _). destruct Z2 as (B1 & (B2 & _) & B3 & B4 & _).
  unfold plain in C. injection C as C1 C2 _ _ _ _. split; [unfold getbase; now rewrite A2, B2, C1, C2|].
  split; [|congruence]. intros jk. unfold getR. now rewrite A3, B3, C1, C2.
Qed.

Theorem C74_exact_parallel_reduces :
  forall (fp : fpops R), exact fp ->
  forall J n d A u m lg vd nS thr nb, 2 <= d -> 1 <= nS -> independent n d (fn A) -> (m < 1)%Z ->
  forall fuel delta verbose junk L,
    hlll fp fuel delta verbose junk (fresh_object fp J n d A u m lg vd nS thr nb) = Ok (0%Z, L) ->
    (nblov (lc L) < nb)%Z ->
    same_lattice n d (fn A) (fn (getbase L)) /\
    LLL_reduced n d delta (fn (getbase L)) /\
    forall junk', let r := fun i j => mget 0%R (getR fp junk' L) i j in
      R_factor n d (fn (getbase L)) r /\ size_reduced d r /\ lovasz_ok d delta r.
Proof.
  intros fp X J n d A u m lg vd nS thr nb D2 HS I Hm fuel delta vb junk L H NB.
  pose proof (parallel_as_one fp X J n d A u m lg vd nS thr nb fuel delta vb junk HS Hm) as P. rewrite H in P.
  destruct (hlll fp fuel delta vb junk (fresh_object fp J n d A u m lg vd 1 thr nb)) as [[r M]| |] eqn:E; try contradiction.
  destruct P as (<- & P1 & P2 & P3). rewrite P1. rewrite P3 in NB.
  destruct (C04_exact_hlll_reduces fp X J n d A u m lg vd thr nb D2 I Hm fuel delta vb junk M E NB) as (Q1 & Q2 & Q3).
  split; [exact Q1|]. split; [exact Q2|]. intros jk. rewrite P2. apply Q3.
Qed.

Theorem C74_exact_parallel_terminates :
  forall (fp : fpops R), exact fp -> (forall x, (Rabs x <= / 2)%R -> frnd fp x = 0%R) ->
  forall J n d A u m lg vd nS thr nb, 1 <= nS -> independent n d (fn A) -> (m < 1)%Z ->
  forall fuel delta verbose junk, (delta <= 1)%R ->
    (2 * potential n d (fn A) + Z.of_nat d + 1 <= Z.of_nat fuel)%Z ->
    exists L, hlll fp fuel delta verbose junk (fresh_object fp J n d A u m lg vd nS thr nb) = Ok (0%Z, L) /\
      ((Z.of_nat fuel < nb)%Z -> 2 <= d -> LLL_reduced n d delta (fn (getbase L))).
Proof.
  intros fp X HH J n d A u m lg vd nS thr nb HS I Hm fuel delta vb junk HD HF.
  destruct (C43_exact_terminates fp X HH J n d A u m lg vd thr nb I Hm fuel delta vb junk HD HF) as (M & HM & Q).
  pose proof (parallel_as_one fp X J n d A u m lg vd nS thr nb fuel delta vb junk HS Hm) as P. rewrite HM in P.
  destruct (hlll fp fuel delta vb junk (fresh_object fp J n d A u m lg vd nS thr nb)) as [[r L]| |]; try contradiction.
  destruct P as (-> & P1 & _). exists L. split; [reflexivity|]. now rewrite P1.
Qed.

(** the hypotheses are met: one thread against four *)
Example C74_case : exists L L',
  run dbl [CallHlll 200 d99 false 0%float] (new_lattice dbl Jz 4 3 A1 true 0%Z false 0%Z) = Ok L /\
  run dbl [CallSetNumS 4 0; CallHlll 200 d99 false 0%float] (new_lattice dbl Jz 4 3 A1 false 0%Z false 0%Z) = Ok L' /\
  getbase L = getbase L' /\ getbase L <> A1 /\ getU L <> [] /\ getU L' = [].
Proof. do 2 eexists. split; [vm_compute; reflexivity|]. split; [vm_compute; reflexivity|]. split; [vm_compute; reflexivity|]. split; [vm_compute; discriminate|]. split; [vm_compute; discriminate|vm_compute; reflexivity]. Qed.

(** with SEYSEN the number of threads does change the result: above the threshold nothing is reduced *)
Definition A74 : mat Z := [[1;0];[7;1]]%Z.
Theorem C74_seysen_threads_refuted :
  ~ (forall J n d A u m vd nS thr fuel delta verbose junk L L', 1 <= nS -> independent n d (fn A) -> (1 <= m)%Z ->
      hlll dbl fuel delta verbose junk (new_lattice dbl J n d A u m true vd) = Ok (0%Z, L) ->
      hlll dbl fuel delta verbose junk (set_num_S nS thr (new_lattice dbl J n d A u m true vd)) = Ok (0%Z, L') ->
      getbase L = getbase L').
Proof.
  intros H.
  assert (R0 : exists L L', hlll dbl 20 d99 false 0%float (new_lattice dbl Jz 2 2 A74 false 1 true 0) = Ok (0%Z, L) /\
    hlll dbl 20 d99 false 0%float (set_num_S 2 1 (new_lattice dbl Jz 2 2 A74 false 1 true 0)) = Ok (0%Z, L') /\
    getbase L = [[1;0];[0;1]]%Z /\ getbase L' = A74)
    by (do 2 eexists; split; [vm_compute; reflexivity|]; split; [vm_compute; reflexivity|]; split; vm_compute; reflexivity).
  destruct R0 as (L & L' & R1 & R2 & G1 & G2).
  pose proof (H Jz 2 2 A74 false 1%Z 0%Z 2 1%Z 20 d99 false 0%float L L' ltac:(lia)) as Q.
  rewrite G1, G2 in Q. discriminate Q; [|lia|exact R1|exact R2].
  intros c0 K j Hj. pose proof (K 0 ltac:(lia)) as H0. pose proof (K 1 ltac:(lia)) as H1.
  cbv [sumZ fn mget col nth A74] in H0, H1. destruct j as [|[|j]]; lia.
Qed.

Print Assumptions C74_threads_and_transform.
Print Assumptions C74_exact_parallel_reduces.
Print Assumptions C74_exact_parallel_terminates.
Print Assumptions C74_seysen_threads_refuted.
