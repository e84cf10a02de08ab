(** From decompositions and the values of functions at the nodes to the expansion. *)
From Coq Require Import String ZArith Arith Bool Reals Lra Lia Psatz.
From Coquelicot Require Import Coquelicot.
From Coq Require Import List Sorting.Sorted Sorting.Permutation.
From Verif.Model Require Import Base Util Num Gauss Poly SVE Kernel Compute.
From Verif.Spec Require Import SGauss SPoly SFT SSVE SBasis SKernel SCompute SSingular SWhole SNear SComputed.
From Verif.Proofs Require Import BaseFacts SumFacts IntFacts PolyFacts GaussFacts GaussExact LegRoots PPolyFacts PPolyInt SVEFacts BasisPhys KernelProps KernelSegs HintFacts ComputeNodes ComputePost ComputeSampling ComputeMerge ComputeMerged ComputeError ComputeFull SingularEq SingularCompute EckartYoung SvdExists BestCuts NearBest RoundedSVE Polar Selected ComputedSVD.
Import ListNotations.
Open Scope R_scope.
Notation length := List.length.

(** The functions of r take the values of the vectors of a block at the nodes. *)
Definition carries (gx gy : rule) (r : sve_result) (b : usv) : Prop :=
  let '(us, s, vs) := b in
  forall l, (l < length (ss r))%nat -> (l < length s)%nat /\ nth l (ss r) 0 = nth l s 0 /\
    exists sg, sg * sg = 1 /\
      (forall p, (p < length (rx gx))%nat -> col_at (su r) gx l p = sg * (ent us l p / sqrt (weights gx p))) /\
      (forall q, (q < length (rx gy))%nat -> col_at (sv r) gy l q = sg * (ent vs l q / sqrt (weights gy q))).

Section Core.
Variables (n : nat) (q : rule).
Hypothesis Hq : gauss_ok n q.

Lemma core_sample sx sy GX GY k r us s vs A a c d : valid_segments sx -> valid_segments sy -> edges_ok sx -> edges_ok sy ->
  piecewise q sx = Ok GX -> piecewise q sy = Ok GY -> sve_on n sx sy r -> nonincreasing (ss r) -> carries GX GY r (us, s, vs) ->
  A = weighted k GX GY -> computed_svd (length (rx GX)) (length (rx GY)) A (us, s, vs) a c d ->
  near_best GX GY k r (d + 2 * skew (largest (us, s, vs)) a c) (sumsq s) /\
  nearly_orthonormal_functions (su r) a /\ nearly_orthonormal_functions (sv r) c.
Proof.
  intros Vx Vy Ex Ey Px Py On Hns Hn EA (Th & Nu & Nv & Or & Pd & Er). cbn [fst snd] in Nu, Nv.
  pose proof On as (Fu & Fv & Ku & Kv & Gu & Gv & L1 & L2).
  destruct Th as (T1 & T2 & T3 & T4 & T5 & T6).
  destruct (polar_usv _ (length s) us a T1 T3 T5 Nu) as (u' & Ou & Du). destruct (polar_usv _ (length s) vs c T2 T4 T6 Nv) as (v' & Ov & Dv).
  destruct (largest_bound _ Or) as [P0 Pl]. destruct Or as [Ni Np]. unfold svals in Pl, Ni. cbn [fst snd] in Pl, Ni.
  destruct (full_nodes _ _ _ _ Hq Vx Px) as (A1 & A2 & A3 & A4 & A5). destruct (full_nodes _ _ _ _ Hq Vy Py) as (B1 & B2 & B3 & B4 & B5).
  assert (Hnv : node_values GX GY r (length s) (fun l => nth l s 0) (ent us) (ent vs) (fun l => l)).
  { split; [intros l Hl; destruct (Hn l Hl) as (E1 & E2 & _); auto|]. split; [auto|]. split.
    - intros N' b HN' Hb. destruct (Nat.lt_ge_cases b N') as [Hlt|Hge]; [right; exists b; auto|]. left.
      destruct (Hn (N' - 1)%nat ltac:(lia)) as (_ & E2 & _). rewrite E2. apply nonincreasing_nth; auto; lia.
    - intros l Hl. destruct (Hn l Hl) as (_ & _ & sg & C1 & C2 & C3). exists sg. split; [exact C1|]. split.
      + intros p Hpp. rewrite C2 by auto. rewrite A1 in Hpp. pose proof (sqrt_lt_R0 _ (A3 p Hpp)). unfold weights. field. lra.
      + intros p Hpp. rewrite C3 by auto. rewrite B1 in Hpp. pose proof (sqrt_lt_R0 _ (B3 p Hpp)). unfold weights. field. lra. }
  split; [|split].
  - refine (nodes_near n q _ _ GX GY k r Hq Vx Vy Px Py On Hns (length s) _ _ _ _ Hnv u' v' _ a c d _ Ou Ov (proj1 Nu) (proj1 Nv) Pd P0 Du Dv Pl _ _).
    + eapply Rle_trans; [|exact Er]. right. unfold norm2. apply sumn_ext. intros p Hpp. apply sumn_ext. intros p' Hpp'. f_equal.
      rewrite usv_ent, EA, ComputeNonempty.weighted_entry by lia. unfold weights, node. ring.
    + rewrite sumsq_sumn. reflexivity.
  - destruct Hnv as (N1 & N2 & _ & N4). apply (nearly_at_nodes n q _ GX _ (length s) (length (ss r)) (ent us) (fun l => l) a Hq Ex Px Fu Ku Gu L1); auto.
    + intros l Hl. apply N1. exact Hl.
    + intros l Hl. destruct (N4 l Hl) as (sg & C1 & C2 & _). eauto.
    + intros l l' Hl Hl'. apply (gram_entry us (length s) _ a); auto.
  - destruct Hnv as (N1 & N2 & _ & N4). apply (nearly_at_nodes n q _ GY _ (length s) (length (ss r)) (ent vs) (fun l => l) c Hq Ey Py Fv Kv Gv L2); auto.
    + intros l Hl. apply N1. exact Hl.
    + intros l Hl. destruct (N4 l Hl) as (sg & C1 & _ & C2). eauto.
    + intros l l' Hl Hl'. apply (gram_entry vs (length s) _ c); auto.
Qed.

Lemma core_centro argsort safe hx hy gx gy GX GY k re ro r use se vse uso so vso Ae Ao ae ce de ao co d_o :
  half_edges hx -> half_edges hy -> valid_segments (mirrored hx) -> valid_segments (mirrored hy) ->
  piecewise q hx = Ok gx -> piecewise q hy = Ok gy -> piecewise q (mirrored hx) = Ok GX -> piecewise q (mirrored hy) = Ok GY ->
  sve_on n hx hy re -> sve_on n hx hy ro -> sorts (ss re ++ ss ro) (argsort (ss re ++ ss ro)) ->
  merge argsort safe (mirrored hx) (mirrored hy) re ro = Ok r ->
  carries gx gy re (use, se, vse) -> carries gx gy ro (uso, so, vso) ->
  (forall a x, (length (ss re) <= a < length se)%nat -> In x (ss r) -> nth a se 0 <= x) ->
  (forall a x, (length (ss ro) <= a < length so)%nat -> In x (ss r) -> nth a so 0 <= x) ->
  (forall x y, -1 <= x <= 1 -> -1 <= y <= 1 -> k (- x) (- y) = k x y) ->
  Ae = weighted (fun x y => k x y + k x (- y)) gx gy -> Ao = weighted (fun x y => k x y - k x (- y)) gx gy ->
  computed_svd (length (rx gx)) (length (rx gy)) Ae (use, se, vse) ae ce de -> computed_svd (length (rx gx)) (length (rx gy)) Ao (uso, so, vso) ao co d_o ->
  near_best GX GY k r (root2 de d_o + 2 * skew (Rmax (largest (use, se, vse)) (largest (uso, so, vso))) (root2 ae ao) (root2 ce co))
    (sumsq se + sumsq so) /\
  nearly_orthonormal_functions (su r) (Rmax ae ao) /\ nearly_orthonormal_functions (sv r) (Rmax ce co).
Proof.
  intros Hx Hy Vx' Vy' Gx1 Gy1 HGX HGY On1 On2 Hs Hm Hn1 Hn2 De Do Cs Ee Eo
    (The & Nue & Nve & Ore & Pde & Ere) (Tho & Nuo & Nvo & Oro & Pdo & Ero). cbn [fst snd] in Nue, Nve, Nuo, Nvo.
  assert (On : sve_on n (mirrored hx) (mirrored hy) r).
  { destruct (merged argsort safe n _ _ re ro Hx Hy On1 On2 Hs r Hm) as (Fu & Fv & K1 & K2 & Gl1 & Gl2 & _).
    destruct (lens argsort safe n _ _ re ro Hx Hy On1 On2 Hs r Hm) as (Ls & Lu & Lv).
    pose proof On1 as (_ & _ & A3 & A4 & A5 & A6 & _). repeat split; try congruence; try apply Fu; try apply Fv. }
  destruct (merged_sorted argsort safe n _ _ re ro Hx Hy On1 On2 Hs r Hm) as [Ni Perm].
  destruct (largest_bound _ Ore) as [Pe0 Pel]. destruct (largest_bound _ Oro) as [Po0 Pol].
  destruct The as (T1 & T2 & T3 & T4 & T5 & T6). destruct Tho as (T1' & T2' & T3' & T4' & T5' & T6').
  destruct (full_lengths _ _ _ _ _ Hq Hx Gx1 HGX) as (F1 & _ & Z1 & _). destruct (full_lengths _ _ _ _ _ Hq Hy Gy1 HGY) as (F2 & _ & Z3 & _).
  unfold svals in Pel, Pol. cbn [fst snd] in Pel, Pol.
  rewrite Z1 in *. rewrite Z3 in *.
  destruct (polar_usv _ (length se) use ae T1 T3 T5 Nue) as (ue' & Oue & Due). destruct (polar_usv _ (length se) vse ce T2 T4 T6 Nve) as (ve' & Ove & Dve).
  destruct (polar_usv _ (length so) uso ao T1' T3' T5' Nuo) as (uo' & Ouo & Duo). destruct (polar_usv _ (length so) vso co T2' T4' T6' Nvo) as (vo' & Ovo & Dvo).
  pose proof (merged_nodes argsort safe n _ _ re ro r Hx Hy On1 On2 Hs Hm q gx gy GX GY Hq Gx1 Gy1 HGX HGY
    (length se) (length so) (fun l => nth l se 0) (fun l => nth l so 0) (ent use) (ent vse) (ent uso) (ent vso)) as Hnv.
  unfold carries in Hn1, Hn2. rewrite Z1, Z3 in Hn1, Hn2. specialize (Hnv Hn1 Hn2 De Do).
  pose proof On as (Fu & Fv & Ku & Kv & Gu & Gv & LL1 & LL2).
  pose proof (mirror_edges _ Hx) as EX. pose proof (mirror_edges _ Hy) as EY.
  split; [|split].
  - refine (nodes_near n q _ _ GX GY k r Hq Vx' Vy' HGX HGY On Ni _ _ _ _ _ Hnv
      (doubled (length se) _ ue' uo') (doubled (length se) _ ve' vo') _ _ _ _ _ _ _ _ _ _ _ _ _ _ _ _).
    + rewrite F1. apply doubled_ort; auto.
    + rewrite F2. apply doubled_ort; auto.
    + apply sqrt_pos.
    + apply sqrt_pos.
    + apply sqrt_pos.
    + eapply Rle_trans; [exact Pe0|apply Rmax_l].
    + rewrite F1. apply doubled_diff; auto.
    + rewrite F2. apply doubled_diff; auto.
    + intros l Hll. unfold both. destruct (Nat.ltb_spec l (length se)).
      * destruct (Pel l ltac:(auto)) as [Q1 Q2]. split; [exact Q1|]. eapply Rle_trans; [exact Q2|apply Rmax_l].
      * destruct (Pol (l - length se)%nat ltac:(lia)) as [Q1 Q2]. split; [exact Q1|]. eapply Rle_trans; [exact Q2|apply Rmax_r].
    + rewrite F1, F2. apply (doubled_error n q _ _ gx gy GX GY k Hq Hx Hy Gx1 Gy1 HGX HGY Cs).
      * rewrite <- Ee. eapply Rle_trans; [|exact Ere]. right. apply sumn_ext. intros p _. apply sumn_ext. intros p' _. rewrite usv_ent. reflexivity.
      * rewrite <- Eo. eapply Rle_trans; [|exact Ero]. right. apply sumn_ext. intros p _. apply sumn_ext. intros p' _. rewrite usv_ent. reflexivity.
    + rewrite !sumsq_sumn, <- (both_sum (length se) (length so)). apply sumn_ext. intros b _. unfold both, Rsqr. destruct (b <? length se)%nat; reflexivity.
  - destruct Hnv as (Q1 & Q2 & _ & Q4). apply (nearly_at_nodes n q _ GX _ (length se + length so) (length (ss r)) _ _ _ Hq EX HGX Fu Ku Gu LL1 (fun l Hll => proj1 (Q1 l Hll)) Q2
      (fun l Hll => match Q4 l Hll with @ex_intro _ _ sg (conj C1 (conj C2 _)) => ex_intro _ sg (conj C1 C2) end)).
    intros b b0 Hb Hb0. rewrite F1. apply (doubled_gram (length se) (length so)); auto; try apply Nue.
    + intros l l' Hll Hll'. apply (gram_entry use (length se)); auto.
    + intros l l' Hll Hll'. apply (gram_entry uso (length so)); auto.
  - destruct Hnv as (Q1 & Q2 & _ & Q4). apply (nearly_at_nodes n q _ GY _ (length se + length so) (length (ss r)) _ _ _ Hq EY HGY Fv Kv Gv LL2 (fun l Hll => proj1 (Q1 l Hll)) Q2
      (fun l Hll => match Q4 l Hll with @ex_intro _ _ sg (conj C1 (conj _ C2)) => ex_intro _ sg (conj C1 C2) end)).
    intros b b0 Hb Hb0. rewrite F2. apply (doubled_gram (length se) (length so)); auto; try apply Nve.
    + intros l l' Hll Hll'. apply (gram_entry vse (length se)); auto.
    + intros l l' Hll Hll'. apply (gram_entry vso (length so)); auto.
Qed.
End Core.
