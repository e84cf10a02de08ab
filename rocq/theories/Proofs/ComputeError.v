(** The error of truncated expansions at the quadrature nodes. *)
From Coq Require Import String ZArith Arith Bool Reals Lra Lia Psatz.
From Coquelicot Require Import Coquelicot.
From Coq Require Import List Sorting.Sorted Sorting.Permutation.
From Verif.Model Require Import Base Num Gauss Poly SVE Compute.
From Verif.Spec Require Import SGauss SPoly SFT SSVE SBasis SKernel SCompute.
From Verif.Proofs Require Import BaseFacts SumFacts IntFacts GaussFacts PPolyFacts BasisPhys ComputeNodes ComputePost ComputeSampling ComputeMerge ComputeMerged.
Import ListNotations.
Open Scope R_scope.
Notation length := List.length.

(** * Sums *)
Lemma quad2_sumn gx gy g n m : length (rx gx) = n -> length (rw gx) = n -> length (rx gy) = m -> length (rw gy) = m ->
  quad2 gx gy g = sumn n (fun p => sumn m (fun q => nth p (rw gx) 0 * nth q (rw gy) 0 * g (nth p (rx gx) 0) (nth q (rx gy) 0))).
Proof.
  intros A B C D. unfold quad2. rewrite rsum_nth, map2_length, A, B, Nat.min_id. apply sumn_ext. intros p Hp.
  rewrite (map2_nth _ _ _ _ 0 0 0) by lia. rewrite rsum_nth, map2_length, C, D, Nat.min_id. apply sumn_ext. intros q Hq.
  rewrite (map2_nth _ _ _ _ 0 0 0) by lia. reflexivity.
Qed.

Lemma sumsq_sumn l : sumsq l = sumn (length l) (fun i => nth i l 0 * nth i l 0).
Proof. unfold sumsq. rewrite rsum_nth, map_length. apply sumn_ext. intros i Hi. rewrite (nth_map_in _ _ _ 0) by auto. reflexivity. Qed.
Lemma rsum_app l m : rsum (l ++ m) = rsum l + rsum m.
Proof. induction l; simpl; rewrite ?rsum_cons; [unfold rsum; simpl; lra|]. rewrite IHl. lra. Qed.
Lemma sumsq_app l m : sumsq (l ++ m) = sumsq l + sumsq m.
Proof. unfold sumsq. rewrite map_app, rsum_app. auto. Qed.
Lemma sumsq_perm l m : Permutation l m -> sumsq l = sumsq m.
Proof. intros H. apply rsum_perm, Permutation_map, H. Qed.
Lemma sumsq_firstn k l : sumsq l - sumsq (firstn k l) = sumsq (skipn k l).
Proof. rewrite <- (firstn_skipn k l) at 1. rewrite sumsq_app. lra. Qed.

(** The sum of the squares of the entries of sum_a U_a s_a V_a. *)
Lemma frobenius m n N (U V : nat -> nat -> R) (s : nat -> R) :
  (forall a b, (a < N)%nat -> (b < N)%nat -> sumn m (fun p => U a p * U b p) = if Nat.eqb a b then 1 else 0) ->
  (forall a b, (a < N)%nat -> (b < N)%nat -> sumn n (fun q => V a q * V b q) = if Nat.eqb a b then 1 else 0) ->
  sumn m (fun p => sumn n (fun q => Rsqr (sumn N (fun a => U a p * s a * V a q)))) = sumn N (fun a => s a * s a).
Proof.
  intros HU HV.
  transitivity (sumn N (fun a => sumn N (fun b => s a * s b * (sumn m (fun p => U a p * U b p) * sumn n (fun q => V a q * V b q))))).
  - transitivity (sumn m (fun p => sumn n (fun q => sumn N (fun a => sumn N (fun b => s a * s b * ((U a p * U b p) * (V a q * V b q))))))).
    { apply sumn_ext. intros p Hp. apply sumn_ext. intros q Hq. unfold Rsqr. rewrite sumn_mul.
      apply sumn_ext. intros a Ha. apply sumn_ext. intros b Hb. ring. }
    transitivity (sumn m (fun p => sumn N (fun a => sumn N (fun b => s a * s b * ((U a p * U b p) * sumn n (fun q => V a q * V b q)))))).
    { apply sumn_ext. intros p Hp. rewrite sumn_swap. apply sumn_ext. intros a Ha. rewrite sumn_swap. apply sumn_ext. intros b Hb.
      rewrite sumn_scal, sumn_scal. reflexivity. }
    rewrite sumn_swap. apply sumn_ext. intros a Ha. rewrite sumn_swap. apply sumn_ext. intros b Hb.
    rewrite sumn_scal. f_equal. rewrite sumn_scal_r. reflexivity.
  - apply sumn_ext. intros a Ha. rewrite (sumn_single _ _ a Ha).
    + rewrite HU, HV, Nat.eqb_refl by auto. ring.
    + intros b Hb Hne. rewrite HU, HV by auto. destruct (Nat.eqb_spec a b); [congruence|ring].
Qed.

Lemma map2_map_l {A B C D} (h : A -> B -> C) (k : D -> A) l m : map2 h (map k l) m = map2 (fun d b => h (k d) b) l m.
Proof. revert m. induction l as [|a l IH]; intros [|b m]; simpl; auto. f_equal. apply IH. Qed.
Lemma map2_map_rr {A B C D} (h : A -> B -> C) (k : D -> B) l m : map2 h l (map k m) = map2 (fun a d => h a (k d)) l m.
Proof. revert m. induction l as [|a l IH]; intros [|b m]; simpl; auto. f_equal. apply IH. Qed.
Lemma map2_ext {A B C} (h h' : A -> B -> C) l m : (forall a b, h a b = h' a b) -> map2 h l m = map2 h' l m.
Proof. intros H. revert m. induction l as [|a l IH]; intros [|b m]; simpl; auto. rewrite H. f_equal. apply IH. Qed.

(** The matrix handed to the decomposition. *)
Lemma matrix_weighted S k : s_mat S (s_gx S) (s_gy S) = Ok (sampled k (s_gx S) (s_gy S)) ->
  sampling_matrix S = Ok (weighted k (s_gx S) (s_gy S)).
Proof.
  intros H. unfold sampling_matrix. rewrite H. cbn [bind]. f_equal. unfold sampled, weighted, sqrtw.
  rewrite map2_map_l, map2_map_rr. apply map2_ext. intros x w. rewrite map2_map_rr, !map2_map_l. reflexivity.
Qed.

Lemma Forall_firstn {A} (P : A -> Prop) k l : Forall P l -> Forall P (firstn k l).
Proof. intros H. apply Forall_forall. intros x Hx. rewrite Forall_forall in H. apply H. rewrite <- (firstn_skipn k l). apply in_or_app. auto. Qed.
Lemma nth_firstn {A} k (l : list A) i d : (i < k)%nat -> nth i (firstn k l) d = nth i l d.
Proof. revert k i. induction l as [|a l IH]; intros [|k] [|i] H; simpl; auto; try lia. apply IH. lia. Qed.
Lemma nth_skipn {A} k (l : list A) i d : nth i (skipn k l) d = nth (k + i) l d.
Proof. revert l. induction k as [|k IH]; intros [|a l]; simpl; auto. destruct i; auto. Qed.
Lemma ortho_firstn us k : orthonormal_vectors us -> orthonormal_vectors (firstn k us).
Proof.
  intros H l m Hl Hm. rewrite firstn_length in Hl, Hm. rewrite !nth_firstn by lia. apply H; lia.
Qed.

(** * One block *)
Section Block.
Variables (legendre : nat -> res rule) (K : skern) (eps : R) (ng : option nat) (S : ssve) (k : R -> R -> R) (b b' : usv) (kk : nat) (r : sve_result).
Hypothesis HS : sampling_init legendre K eps ng = Ok S.
Hypothesis Hr : gauss_ok (s_n S) (s_rule S).
Hypothesis Hx2 : (2 <= length (s_segs_x S))%nat.
Hypothesis Hy2 : (2 <= length (s_segs_y S))%nat.
Hypothesis Hb : exact_svd (length (rx (s_gx S))) (length (rx (s_gy S))) (weighted k (s_gx S) (s_gy S)) b.
Hypothesis Hk : prefix_of kk b b'.
Hypothesis Hp : sampling_post S b' = Ok (Some r).

Lemma weighted_entry p q : (p < length (rx (s_gx S)))%nat -> (q < length (rx (s_gy S)))%nat ->
  ment (weighted k (s_gx S) (s_gy S)) p q =
  k (nth p (rx (s_gx S)) 0) (nth q (rx (s_gy S)) 0) * sqrt (nth p (rw (s_gx S)) 0) * sqrt (nth q (rw (s_gy S)) 0).
Proof.
  intros Hp' Hq. destruct (sizes _ _ _ _ _ HS Hr Hx2 Hy2) as (N1 & N2 & N3 & N4). rewrite N1 in Hp'. rewrite N3 in Hq.
  unfold ment, weighted. rewrite (map2_nth _ _ _ _ 0 0 []) by lia. rewrite (map2_nth _ _ _ _ 0 0 0) by lia. reflexivity.
Qed.

Lemma block_post : svals b' = firstn kk (svals b) /\ ss r = svals b' /\
  sve_on (s_n S) (s_segs_x S) (s_segs_y S) r /\ seps r = Some (s_eps S) /\
  gxmin (vgeom (su r)) <= 1 <= gxmax (vgeom (su r)) /\
  orthonormal_functions (su r) /\ orthonormal_functions (sv r) /\
  (forall l f, represents (su r) l f -> 0 < f 1).
Proof.
  destruct b as [[us s] vs]. destruct Hb as (L1 & L2 & F1 & F2 & O1 & O2 & HA).
  destruct (sizes _ _ _ _ _ HS Hr Hx2 Hy2) as (N1 & N2 & N3 & N4). rewrite N1 in *. rewrite N3 in *.
  unfold prefix_of in Hk. cbn [fst snd] in Hk. subst b'. split; [reflexivity|].
  assert (L1' : length (firstn kk us) = length (firstn kk s)) by (rewrite !firstn_length; lia).
  assert (L2' : length (firstn kk vs) = length (firstn kk s)) by (rewrite !firstn_length; lia).
  pose proof (Forall_firstn _ kk _ F1) as F1'. pose proof (Forall_firstn _ kk _ F2) as F2'.
  pose proof (ortho_firstn _ kk O1) as O1'. pose proof (ortho_firstn _ kk O2) as O2'.
  destruct (post_struct _ _ _ _ _ HS Hr Hx2 Hy2 _ _ _ r L1' L2' Hp) as (Fu & Fv & Ku & Kv & Gu & Gv & E & Ee & R1 & sg & L & Fsg & Eu & Ev & Hpos).
  destruct (post_lengths _ _ _ _ _ HS Hr Hx2 Hy2 _ _ _ r L1' L2' Hp) as (M1 & M2 & _).
  split; [exact E|]. split; [repeat (split; [assumption|]); split; congruence|]. split; [exact Ee|]. split; [exact R1|].
  split; [eapply (orthonormal_u _ _ _ _ _ HS Hr Hx2 Hy2 (firstn kk us) (firstn kk s) (firstn kk vs) r); eassumption|].
  split; [eapply (orthonormal_v _ _ _ _ _ HS Hr Hx2 Hy2 (firstn kk us) (firstn kk s) (firstn kk vs) r); eassumption|].
  intros l f Hf. destruct Fu as (Hg & Hog & Hlg).
  assert (Hl : (l < length (vcols (su r)))%nat).
  { destruct (nth_error (vcols (su r)) l) eqn:E'; [apply nth_error_Some; congruence|].
    specialize (Hf 1 R1). unfold value in Hf. rewrite split_ok in Hf by auto. cbn [bind] in Hf.
    rewrite BasisPhys.pyindex_nat, E' in Hf. discriminate. }
  apply represents_cval in Hf as (c & Ec & Hc); auto; try lia.
  rewrite <- Hc by auto. apply (nth_error_nth _ _ col0) in Ec. rewrite <- Ec. apply Hpos. lia.
Qed.

Lemma block_error (E : R -> R -> R) :
  (forall x y, In x (rx (s_gx S)) -> In y (rx (s_gy S)) -> sve_sum r x y = Ok (E x y)) ->
  quad2 (s_gx S) (s_gy S) (fun x y => Rsqr (k x y - E x y)) = sumsq (svals b) - sumsq (svals b').
Proof.
  intros HE. pose proof weighted_entry as We. destruct block_post as (Es & _).
  rewrite Es, sumsq_firstn. clear Es.
  destruct b as [[us s] vs]. destruct Hb as (L1 & L2 & F1 & F2 & O1 & O2 & HA).
  destruct (sizes _ _ _ _ _ HS Hr Hx2 Hy2) as (N1 & N2 & N3 & N4).
  rewrite (quad2_sumn _ _ _ _ _ N1 N2 N3 N4).
  set (nx := ((length (s_segs_x S) - 1) * s_n S)%nat) in *. set (ny := ((length (s_segs_y S) - 1) * s_n S)%nat) in *.
  rewrite N1, N3 in *.
  unfold prefix_of in Hk. cbn [fst snd] in Hk. subst b'.
  assert (L1' : length (firstn kk us) = length (firstn kk s)) by (rewrite !firstn_length; lia).
  assert (L2' : length (firstn kk vs) = length (firstn kk s)) by (rewrite !firstn_length; lia).
  pose proof (Forall_firstn _ kk _ F1) as F1'. pose proof (Forall_firstn _ kk _ F2) as F2'.
  unfold svals. cbn [fst snd]. rewrite sumsq_sumn, skipn_length.
  rewrite (sumn_ext (length s - kk) _ (fun a => nth (kk + a) s 0 * nth (kk + a) s 0)) by (intros; rewrite nth_skipn; reflexivity).
  rewrite <- (frobenius nx ny (length s - kk) (fun a p => nth p (nth (kk + a) us []) 0) (fun a q => nth q (nth (kk + a) vs []) 0)).
  - apply sumn_ext. intros p Hpp. apply sumn_ext. intros q Hqq.
    assert (E1 : E (nth p (rx (s_gx S)) 0) (nth q (rx (s_gy S)) 0) =
       sumn (length (firstn kk s)) (fun l => nth p (nth l (firstn kk us) []) 0 * nth l (firstn kk s) 0 * nth q (nth l (firstn kk vs) []) 0) /
       (sqrt (nth p (rw (s_gx S)) 0) * sqrt (nth q (rw (s_gy S)) 0))).
    { pose proof (sum_at _ _ _ _ _ HS Hr Hx2 Hy2 (firstn kk us) (firstn kk s) (firstn kk vs) r L1' L2' F1' F2' Hp p q Hpp Hqq) as Es.
      rewrite HE in Es by (apply nth_In; lia). injection Es as Es. exact Es. }
    pose proof (We p q ltac:(lia) ltac:(lia)) as Wpq. rewrite HA in Wpq by auto.
    pose proof (weights_pos_x _ _ _ _ _ HS Hr Hx2 p Hpp) as Px. pose proof (weights_pos_y _ _ _ _ _ HS Hr Hy2 q Hqq) as Py.
    pose proof (sqrt_lt_R0 _ Px) as Qx. pose proof (sqrt_lt_R0 _ Py) as Qy.
    rewrite <- (sqrt_sqrt (nth p (rw (s_gx S)) 0)) at 1 by lra. rewrite <- (sqrt_sqrt (nth q (rw (s_gy S)) 0)) at 1 by lra.
    set (wx := sqrt _) in *. set (wy := sqrt (nth q _ _)) in *.
    set (kv := k _ _) in *. rewrite E1. clear E1.
    assert (Split : sumn (length s) (fun l => nth p (nth l us []) 0 * nth l s 0 * nth q (nth l vs []) 0) =
      sumn (length (firstn kk s)) (fun l => nth p (nth l (firstn kk us) []) 0 * nth l (firstn kk s) 0 * nth q (nth l (firstn kk vs) []) 0) +
      sumn (length s - kk) (fun a => nth p (nth (kk + a) us []) 0 * nth (kk + a) s 0 * nth q (nth (kk + a) vs []) 0)).
    { rewrite firstn_length. destruct (Nat.le_gt_cases kk (length s)) as [Hle|Hgt].
      - rewrite Nat.min_l by auto. replace (length s) with (kk + (length s - kk))%nat at 1 by lia. rewrite sumn_app. f_equal.
        apply sumn_ext. intros l Hl. rewrite !nth_firstn by auto. reflexivity.
      - rewrite Nat.min_r by lia. replace (length s - kk)%nat with 0%nat by lia. rewrite !firstn_all2 by lia. simpl. lra. }
    rewrite Split in Wpq. set (A := sumn (length (firstn kk s)) _) in *. set (D := sumn (length s - kk) _) in *.
    assert (EK : kv = (A + D) / (wx * wy)) by (rewrite Wpq; field; lra). rewrite EK. unfold Rsqr. field. lra.
  - intros a a' Ha Ha'. rewrite <- (dot_sumn _ _ nx) by (rewrite Forall_forall in F1; apply F1, nth_In; lia).
    rewrite O1 by lia. destruct (Nat.eqb_spec a a'), (Nat.eqb_spec (kk + a) (kk + a')); auto; lia.
  - intros a a' Ha Ha'. rewrite <- (dot_sumn _ _ ny) by (rewrite Forall_forall in F2; apply F2, nth_In; lia).
    rewrite O2 by lia. destruct (Nat.eqb_spec a a'), (Nat.eqb_spec (kk + a) (kk + a')); auto; lia.
Qed.
End Block.

(** Nodes are not knots. *)
Lemma node_not_edge n r segs q : gauss_ok n r -> edges_ok segs -> piecewise r segs = Ok q -> forall x, In x (rx q) ->
  ~ In x segs /\ nth 0 segs 0 < x < nth (length segs - 1) segs 0.
Proof.
  intros Hr Hs Hq x Hx. apply (In_nth _ _ 0) in Hx as (p & Hp & <-).
  destruct (node_lengths _ _ _ _ Hr Hs Hq) as [Ln _]. rewrite Ln in Hp.
  assert (HH : (p / n < length segs - 1)%nat /\ (p mod n < n)%nat /\ (p / n * n + p mod n = p)%nat).
  { destruct Hr as (Hn & _). repeat split.
    - apply Nat.div_lt_upper_bound; lia.
    - apply Nat.mod_upper_bound; lia.
    - rewrite (Nat.mul_comm _ n). symmetry. apply Nat.div_mod. lia. }
  destruct HH as (Hi & Hj & E).
  destruct (node_at n r segs q Hr Hs Hq _ _ Hi Hj) as [Ex _]. rewrite E in Ex.
  pose proof (seg_lt segs Hs _ Hi) as Hlt. cbv beta in Hlt. destruct (rule_node n r segs Hr _ Hj) as [Ht _].
  set (i := (p / n)%nat) in *. set (t := nth (p mod n) (rx r) 0) in *.
  assert (In1 : nth i segs 0 < nth p (rx q) 0 < nth (S i) segs 0) by (rewrite Ex; nra).
  assert (Hmono : forall a c, (a <= c < length segs)%nat -> nth a segs 0 <= nth c segs 0).
  { intros a c Hac. destruct (Nat.eq_dec a c) as [->|]; [lra|]. left.
    apply (proj1 (StronglySorted_nth Rlt segs 0) (proj2 Hs)); lia. }
  split.
  - intros Hin. apply (In_nth _ _ 0) in Hin as (c & Hc & Ec). rewrite <- Ec in In1.
    destruct (Nat.le_gt_cases c i).
    + pose proof (Hmono c i ltac:(lia)). lra.
    + pose proof (Hmono (S i) c ltac:(lia)). lra.
  - pose proof (Hmono 0%nat i ltac:(lia)). pose proof (Hmono (S i) (length segs - 1)%nat ltac:(lia)). lra.
Qed.
