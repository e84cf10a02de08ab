(** Functions with rounded coefficients stand for a slightly different decomposition. *)
From Coq Require Import String ZArith Arith Bool Reals Lra Lia Psatz.
From Coquelicot Require Import Coquelicot.
From Coq Require Import List Sorting.Sorted.
From Verif.Model Require Import Base Num Gauss Poly SVE Compute.
From Verif.Spec Require Import SGauss SPoly SFT SSVE SBasis SCompute SSingular SWhole SNear SComputed SKernelIEEE SSVEIEEE SRoundedCompute.
From Verif.Proofs Require Import BaseFacts SumFacts IntFacts LegFacts GaussFacts GaussExact PPolyFacts PPolyInt BasisPhys ComputeNodes ComputePost ComputeSampling ComputeError SingularEq EckartYoung SvdExists BestCuts RoundedSVE Polar ComputedSVD NodesCore Perturb CoefFun RoundVectors PerturbedBlock.
Import ListNotations.
Open Scope R_scope.
Notation length := List.length.

Definition near_coefficients (n : nat) (q : rule) (segs : list R) (G : rule) (us : list (list R)) (p : vpoly) (sgs : list R) (C tau : R) : Prop :=
  forall l k i, (l < length sgs)%nat -> (k < n)%nat -> (i < length segs - 1)%nat ->
    Rabs (nth l sgs 0 * cdat (nth l (vcols p) col0) k i - collocate n q segs (sqrtw G) (nth l us []) k i)
    <= (2 * INR k + 1) * (C * part_norm n (nth l us []) i + tau).

Section Axis.
Variables (n : nat) (q : rule) (segs : list R) (G : rule) (us : list (list R)) (p : vpoly) (sgs : list R) (C tau : R).
Hypothesis Hq : gauss_ok n q.
Hypothesis Hs : edges_ok segs.
Hypothesis HG : piecewise q segs = Ok G.
Hypothesis Hp : fresh p.
Hypothesis Hk : gknots (vgeom p) = segs.
Hypothesis Hl : glen (vgeom p) = n.
Hypothesis Hsg : Forall (fun c => c = 1 \/ c = -1) sgs.
Hypothesis HC : 0 <= C.
Hypothesis Ht : 0 <= tau.
Hypothesis Hn : near_coefficients n q segs G us p sgs C tau.

(** The coefficients without the signs; exact ones for the functions left out. *)
Definition unsigned (l k i : nat) : R :=
  if (l <? length sgs)%nat then nth l sgs 0 * cdat (nth l (vcols p) col0) k i else collocate n q segs (sqrtw G) (nth l us []) k i.

Lemma unsigned_near l k i : (k < n)%nat -> (i < length segs - 1)%nat ->
  Rabs (unsigned l k i - collocate n q segs (sqrtw G) (nth l us []) k i) <= (2 * INR k + 1) * (C * part_norm n (nth l us []) i + tau).
Proof.
  intros Hk' Hi. unfold unsigned. destruct (Nat.ltb_spec l (length sgs)) as [Hlt|Hge]; [apply Hn; auto|].
  rewrite Rminus_eq_0, Rabs_R0. pose proof (pos_INR k). apply Rmult_le_pos; [lra|]. pose proof (Rmult_le_pos _ _ HC (sqrt_pos (sumn n (fun j => Rsqr (nth (i * n + j) (nth l us []) 0))))). unfold part_norm. lra.
Qed.

Definition stood (l : nat) : nat -> R := lifted G (vgeom p) (unsigned l).

Lemma stood_size a : Forall (fun v => length v = length (rx G)) us -> nearly_orthonormal us a -> a <= 1 ->
  size2 (length us) (length (rx G)) (fun l i => stood l i - ent us l i) <= Rsqr (vectors_error n (length us) (length segs - 1) C tau).
Proof.
  intros Hus Ho Ha. destruct (node_lengths n q segs G Hq Hs HG) as [L1 _]. rewrite L1 in *.
  apply (vectors_size n q segs G (vgeom p) us unsigned a C tau); auto; [apply Hp|]. intros. apply unsigned_near; auto.
Qed.

Lemma stood_values l i : (l < length sgs)%nat -> (i < length (rx G))%nat ->
  col_at p G l i = nth l sgs 0 * (stood l i / sqrt (weights G i)).
Proof.
  intros Hll Hi. unfold stood, lifted, col_at, node, weights. destruct (node_lengths n q segs G Hq Hs HG) as [L1 _].
  pose proof (sqrt_lt_R0 _ (weight_pos n q segs G Hq Hs HG i ltac:(lia))) as W.
  assert (E : nth l sgs 0 * nth l sgs 0 = 1). { rewrite Forall_forall in Hsg. destruct (Hsg _ (nth_In sgs 0 Hll)) as [-> | ->]; ring. }
  transitivity (nth l sgs 0 * cval (vgeom p) (Col (unsigned l) 0) (nth i (rx G) 0)); [|field; lra].
  rewrite <- (cval_scale (vgeom p) (nth l sgs 0)). unfold cval. f_equal. apply legval_ext. intros k Hk'. unfold scale_col. cbn [cdat]. unfold unsigned.
  rewrite (proj2 (Nat.ltb_lt _ _) Hll). set (z := cdat _ _ _). transitivity (nth l sgs 0 * nth l sgs 0 * z); [rewrite E; ring|ring].
Qed.
End Axis.

Lemma carried u eta ro n q sx sy GX GY R us s vs A a c d sgs C tau :
  0 <= u -> 0 <= eta -> rounding u eta ro -> (forall x y, x <= y -> ro x <= ro y) ->
  gauss_ok n q -> edges_ok sx -> edges_ok sy -> piecewise q sx = Ok GX -> piecewise q sy = Ok GY ->
  sve_on n sx sy R -> ss R = firstn (length sgs) (map ro s) -> length sgs = length (ss R) -> Forall (fun c => c = 1 \/ c = -1) sgs ->
  0 <= C -> 0 <= tau -> near_coefficients n q sx GX us (su R) sgs C tau -> near_coefficients n q sy GY vs (sv R) sgs C tau ->
  computed_svd (length (rx GX)) (length (rx GY)) A (us, s, vs) a c d ->
  let al := vectors_error n (length s) (length sx - 1) C tau in
  let ga := vectors_error n (length s) (length sy - 1) C tau in
  a + 4 * al <= 1 -> c + 4 * ga <= 1 ->
  exists us' vs', carries GX GY R (us', map ro s, vs') /\
    computed_svd (length (rx GX)) (length (rx GY)) A (us', map ro s, vs') (a + 4 * al) (c + 4 * ga) (d + product_error u eta s (ro (nth 0 s 0)) al ga).
Proof.
  intros Hu He Hr Hm Hq Hsx Hsy HX HY On Es Ls Hsg HC Ht Nu Nv Hc al ga Ha Hga.
  pose proof On as (Fu & Fv & Ku & Kv & Gu & Gv & _).
  pose proof Hc as (Th & Ou & Ov & Or & Hd & _). destruct Th as (L1 & L2 & L3 & L4 & F1 & F2). cbn [fst snd] in Ou, Ov.
  pose proof (vectors_pos n (length s) (length sx - 1) C tau HC Ht) as Pal. pose proof (vectors_pos n (length s) (length sy - 1) C tau HC Ht) as Pga. fold al in Pal. fold ga in Pga.
  pose proof (stood_size n q sx GX us (su R) sgs C tau Hq Hsx HX Fu Ku Gu HC Ht Nu a F1 Ou ltac:(lra)) as S1. rewrite L1 in S1. fold al in S1.
  pose proof (stood_size n q sy GY vs (sv R) sgs C tau Hq Hsy HY Fv Kv Gv HC Ht Nv c F2 Ov ltac:(lra)) as S2. rewrite L2 in S2. fold ga in S2.
  eexists. eexists. split; [|exact (perturbed_svd u eta ro Hu He Hr Hm _ _ A us s vs a c d _ _ al ga Hc Pal Pga Ha Hga S1 S2)].
  intros l Hl. rewrite map_length. pose proof Hl as Hl'. rewrite Es, firstn_length, map_length in Hl'. split; [lia|]. split; [rewrite Es; apply nth_firstn; lia|].
  assert (Hls : (l < length sgs)%nat) by lia.
  exists (nth l sgs 0). split. { rewrite Forall_forall in Hsg. destruct (Hsg _ (nth_In sgs 0 Hls)) as [-> | ->]; ring. }
  split; intros i Hi; rewrite tab_ent by (auto; lia).
  - apply (stood_values n q sx GX us (su R) sgs); auto.
  - apply (stood_values n q sy GY vs (sv R) sgs); auto.
Qed.
