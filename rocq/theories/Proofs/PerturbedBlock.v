(** A decomposition with perturbed vectors and rounded values. *)
From Coq Require Import String ZArith Arith Bool Reals Lra Lia Psatz.
From Coquelicot Require Import Coquelicot.
From Coq Require Import List Sorting.Sorted.
From Verif.Model Require Import Base Num Gauss Poly SVE Compute.
From Verif.Spec Require Import SGauss SPoly SFT SSVE SBasis SCompute SSingular SWhole SNear SComputed SKernelIEEE SSVEIEEE SRoundedCompute.
From Verif.Proofs Require Import BaseFacts SumFacts IntFacts LegFacts GaussFacts GaussExact PPolyFacts PPolyInt BasisPhys ComputeNodes ComputePost ComputeSampling ComputeError SingularEq EckartYoung SvdExists BestCuts RoundedSVE Polar ComputedSVD Perturb CoefFun RoundVectors.
Import ListNotations.
Open Scope R_scope.
Notation length := List.length.
Notation ip := SvdExists.ip.

Definition tab (L m : nat) (U : nat -> nat -> R) : list (list R) := map (fun l => map (U l) (seq 0 m)) (seq 0 L).

Lemma tab_len L m U : length (tab L m U) = L.
Proof. unfold tab. rewrite map_length. apply seq_length. Qed.
Lemma tab_rows L m U : Forall (fun v => length v = m) (tab L m U).
Proof. apply Forall_forall. intros v Hv. apply in_map_iff in Hv as (l & <- & _). rewrite map_length. apply seq_length. Qed.
Lemma tab_ent L m U l p : (l < L)%nat -> (p < m)%nat -> ent (tab L m U) l p = U l p.
Proof.
  intros Hl Hp. unfold ent, tab. rewrite (nth_map_in _ _ _ 0%nat) by (rewrite seq_length; auto). rewrite (nth_map_in _ _ _ 0%nat) by (rewrite seq_length; auto).
  rewrite !seq_nth by auto. reflexivity.
Qed.
Lemma tab_nearly L m U a : 0 <= a -> gram m L U <= Rsqr a -> nearly_orthonormal (tab L m U) a.
Proof.
  intros Ha Hg. split; auto. unfold gram_error. rewrite tab_len. eapply Rle_trans; [|exact Hg]. right. apply sumn_ext. intros l Hl. apply sumn_ext. intros j Hj.
  f_equal. unfold delta. f_equal. pose proof (tab_rows L m U) as F. rewrite Forall_forall in F.
  rewrite (dot_sumn _ _ m) by (apply F, nth_In; rewrite tab_len; auto). apply sumn_ext. intros p Hp. fold (ent (tab L m U) l p). fold (ent (tab L m U) j p). rewrite !tab_ent by auto. reflexivity.
Qed.

Lemma vectors_pos n L m ce tau : 0 <= ce -> 0 <= tau -> 0 <= vectors_error n L m ce tau.
Proof.
  intros. unfold vectors_error. apply Rmult_le_pos; [apply Rmult_le_pos; [apply pos_INR|apply sqrt_pos]|].
  pose proof (Rmult_le_pos _ _ (sqrt_pos (INR m)) H0). lra.
Qed.

(** The vectors for which functions with perturbed coefficients stand. *)
Lemma vectors_size n r segs q g us (ch : nat -> nat -> nat -> R) a C tau :
  gauss_ok n r -> edges_ok segs -> piecewise r segs = Ok q -> geom_ok g -> gknots g = segs -> glen g = n ->
  Forall (fun v => length v = ((length segs - 1) * n)%nat) us -> nearly_orthonormal us a -> a <= 1 -> 0 <= C -> 0 <= tau ->
  (forall l k i, (l < length us)%nat -> (k < n)%nat -> (i < length segs - 1)%nat ->
     Rabs (ch l k i - collocate n r segs (sqrtw q) (nth l us []) k i) <= (2 * INR k + 1) * (C * part_norm n (nth l us []) i + tau)) ->
  size2 (length us) ((length segs - 1) * n) (fun l p => lifted q g (ch l) p - ent us l p) <= Rsqr (vectors_error n (length us) (length segs - 1) C tau).
Proof.
  intros Hr Hs Hq Hg Hk Hl Hus Hn Ha HC Ht Hch. set (m := (length segs - 1)%nat) in *. set (L := length us) in *.
  pose proof (gram_ip us L (m * n) a eq_refl Hus Hn) as Gr. rewrite Forall_forall in Hus.
  assert (B : forall l, (l < L)%nat -> sumn (m * n) (fun p => Rsqr (lifted q g (ch l) p - ent us l p)) <= 4 * (INR n * INR n) * (2 * Rsqr C + INR m * Rsqr tau)).
  { intros l Hll. eapply Rle_trans; [apply (lifted_near n r segs q Hr Hs Hq g Hg Hk Hl (ch l) (nth l us []) C tau); auto|].
    - apply Hus, nth_In; auto.
    - apply Rmult_le_compat_l; [pose proof (pos_INR n); apply Rmult_le_pos; [lra|apply Rmult_le_pos; auto]|]. apply Rplus_le_compat_r.
      rewrite (Rmult_comm 2). apply Rmult_le_compat_l; [apply Rle_0_sqr|].
      pose proof (unit_size (m * n) L (ent us) a (proj1 Hn) Gr l Hll) as Us. rewrite ip_sqr in Us. fold m. unfold ent in Us. lra. }
  unfold size2. eapply Rle_trans; [apply sumn_le; exact B|]. rewrite sumn_const. unfold vectors_error.
  pose proof (sqrt_sqrt _ (pos_INR L)) as E1. pose proof (sqrt_sqrt _ (pos_INR m)) as E2. set (x := sqrt (INR L)) in *. set (y := sqrt (INR m)) in *.
  assert (Py : 0 <= y) by apply sqrt_pos. pose proof (pos_INR L) as PL. rewrite <- E1, <- E2.
  replace (x * x * (4 * (INR n * INR n) * (2 * Rsqr C + y * y * Rsqr tau))) with (Rsqr (INR n * x) * (8 * Rsqr C + 4 * Rsqr (y * tau))) by (unfold Rsqr; ring).
  rewrite (Rsqr_mult (INR n * x)). apply Rmult_le_compat_l; [apply Rle_0_sqr|].
  pose proof (Rmult_le_pos _ _ Py Ht) as P. set (z := y * tau) in *. replace (2 * y * tau) with (2 * z) by (unfold z; ring).
  pose proof (Rmult_le_pos _ _ HC P). pose proof (Rle_0_sqr C). unfold Rsqr in *. lra.
Qed.

(** * Rounded values *)
Section Values.
Variables (u eta : R) (ro : R -> R).
Hypothesis Hu : 0 <= u.
Hypothesis He : 0 <= eta.
Hypothesis Hr : rounding u eta ro.
Hypothesis Hm : forall x y, x <= y -> ro x <= ro y.

Lemma round_sorted s : nonincreasing s -> nonincreasing (map ro s).
Proof.
  intros H. unfold nonincreasing in *. induction H as [|a l Hl IH Ha]; cbn [map]; constructor; auto.
  apply Forall_map. eapply Forall_impl; [|exact Ha]. cbn. intros. apply Hm. auto.
Qed.
Lemma round_pos s : Forall (fun x => 0 <= x) s -> Forall (fun x => 0 <= x) (map ro s).
Proof. intros H. apply Forall_map. eapply Forall_impl; [|exact H]. cbn. intros x Hx. apply (proj1 (proj2 Hr)); auto. Qed.
Lemma round_values s : sumn (length s) (fun l => Rsqr (nth l s 0 - nth l (map ro s) 0)) <= Rsqr (u * sqrt (sumsq s) + eta * sqrt (INR (length s))).
Proof.
  assert (E : forall x, x * x = Rsqr x) by reflexivity.
  set (L := length s).
  assert (B1 : sumn 1 (fun _ => sumn L (fun l => Rsqr (u * Rabs (nth l s 0)))) <= Rsqr (u * sqrt (sumsq s))).
  { cbn [sumn]. rewrite Rplus_0_l. rewrite Rsqr_mult, Rsqr_sqrt.
    - rewrite sumsq_sumn, <- sumn_scal. right. apply sumn_ext. intros l Hl. rewrite Rsqr_mult, <- Rsqr_abs. reflexivity.
    - rewrite sumsq_sumn. apply sumn_nonneg. intros. apply Rle_0_sqr. }
  assert (B2 : sumn 1 (fun _ => sumn L (fun l => Rsqr eta)) <= Rsqr (eta * sqrt (INR L))).
  { cbn [sumn]. rewrite Rplus_0_l, sumn_const, Rsqr_mult, Rsqr_sqrt by apply pos_INR. right. ring. }
  pose proof (minkowski2 1 L _ _ _ _ (Rmult_le_pos _ _ Hu (sqrt_pos _)) (Rmult_le_pos _ _ He (sqrt_pos _)) B1 B2) as M. cbn [sumn] in M. rewrite Rplus_0_l in M.
  eapply Rle_trans; [|exact M]. apply sumn_le. intros l Hl. rewrite (nth_map_in ro _ _ 0) by auto.
  apply Rsqr_le_abs_1. pose proof (proj1 Hr (nth l s 0)) as Q. rewrite Rabs_minus_sym in Q.
  assert (P : 0 <= u * Rabs (nth l s 0)) by (apply Rmult_le_pos; [auto|apply Rabs_pos]). rewrite (Rabs_pos_eq (_ + eta)) by lra. exact Q.
Qed.

Lemma perturbed_svd m n A us s vs a c d U V al ga :
  computed_svd m n A (us, s, vs) a c d -> 0 <= al -> 0 <= ga -> a + 4 * al <= 1 -> c + 4 * ga <= 1 ->
  size2 (length s) m (fun l p => U l p - ent us l p) <= Rsqr al -> size2 (length s) n (fun l p => V l p - ent vs l p) <= Rsqr ga ->
  computed_svd m n A (tab (length s) m U, map ro s, tab (length s) n V) (a + 4 * al) (c + 4 * ga)
    (d + product_error u eta s (ro (nth 0 s 0)) al ga).
Proof.
  intros (Ht & Hnu & Hnv & Ho & Hd & Hs) Hal Hga Ha Hc Du Dv. destruct Ht as (L1 & L2 & L3 & L4 & F1 & F2). cbn [fst snd] in *.
  destruct Ho as [Ho1 Ho2]. cbn [svals fst snd] in *.
  assert (Pa : 0 <= a) by apply Hnu. assert (Pc : 0 <= c) by apply Hnv.
  pose proof (gram_ip us (length s) m a L1 F1 Hnu) as Gu. pose proof (gram_ip vs (length s) n c L2 F2 Hnv) as Gv.
  assert (Gu' : gram m (length s) U <= Rsqr (a + 4 * al)) by (apply (gram_perturb _ _ (ent us)); auto; lra).
  assert (Gv' : gram n (length s) V <= Rsqr (c + 4 * ga)) by (apply (gram_perturb _ _ (ent vs)); auto; lra).
  assert (P0 : 0 <= ro (nth 0 s 0)).
  { apply (proj1 (proj2 Hr)). destruct s as [|x s]; cbn [nth]; [lra|]. inversion Ho2; auto. }
  set (rr := u * sqrt (sumsq s) + eta * sqrt (INR (length s))).
  assert (Prr : 0 <= rr) by (pose proof (Rmult_le_pos _ _ Hu (sqrt_pos (sumsq s))); pose proof (Rmult_le_pos _ _ He (sqrt_pos (INR (length s)))); unfold rr; lra).
  assert (Pp : 0 <= 9 / 4 * rr + 3 / 2 * (ro (nth 0 s 0) * (al + ga))) by (pose proof (Rmult_le_pos _ _ P0 (Rplus_le_le_0_compat _ _ Hal Hga)); lra).
  unfold product_error. fold rr.
  split; [|split; [|split; [|split; [|split]]]].
  - cbn [thin_usv]. rewrite !tab_len, map_length. do 4 (split; [auto|]). split; apply tab_rows.
  - cbn [fst snd]. apply tab_nearly; auto. lra.
  - cbn [fst snd]. apply tab_nearly; auto. lra.
  - split; cbn [svals fst snd]; [apply round_sorted|apply round_pos]; auto.
  - lra.
  - pose proof (product_perturb m n (length s) (fun l => nth l s 0) (fun l => nth l (map ro s) 0) (ent us) U (ent vs) V a c (a + 4 * al) al ga rr (ro (nth 0 s 0))) as Q.
    specialize (Q ltac:(lra) ltac:(lra) ltac:(lra) Hal Hga Prr P0 Gu Gv Gu' Du Dv (round_values s)). cbv beta in Q.
    assert (B : forall l, (l < length s)%nat -> 0 <= nth l (map ro s) 0 <= ro (nth 0 s 0)).
    { intros l Hl. rewrite (nth_map_in ro _ _ 0) by auto. split; [apply (proj1 (proj2 Hr)); rewrite Forall_forall in Ho2; apply Ho2, nth_In; auto|].
      apply Hm. apply nonincreasing_nth; auto. lia. }
    specialize (Q B).
    pose proof (minkowski2 m n _ _ _ _ Hd Pp Hs Q) as M. eapply Rle_trans; [|exact M]. right. apply sumn_ext. intros i Hi. apply sumn_ext. intros j Hj. f_equal.
    unfold usv_entry. rewrite map_length.
    rewrite (sumn_ext _ (fun l => nth i (nth l us []) 0 * nth l s 0 * nth j (nth l vs []) 0) (fun l => nth l s 0 * (ent us l i * ent vs l j))) by (intros; unfold ent; ring).
    rewrite (sumn_ext _ (fun l => nth i (nth l (tab _ m U) []) 0 * nth l (map ro s) 0 * nth j (nth l (tab _ n V) []) 0) (fun l => nth l (map ro s) 0 * (U l i * V l j))).
    2:{ intros l Hl. fold (ent (tab (length s) m U) l i). fold (ent (tab (length s) n V) l j). rewrite !tab_ent by auto. ring. }
    ring.
Qed.
End Values.
