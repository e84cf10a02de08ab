(** The expansion built by SamplingSVE at the quadrature nodes, and orthonormality. *)
From Coq Require Import String ZArith Arith Bool Reals Lra Lia Psatz.
From Coquelicot Require Import Coquelicot.
From Coq Require Import List Sorting.Sorted.
From Verif.Model Require Import Base Num Gauss Poly SVE Compute.
From Verif.Spec Require Import SGauss SPoly SFT SSVE SBasis SCompute.
From Verif.Proofs Require Import BaseFacts SumFacts IntFacts LegFacts GaussFacts PPolyFacts PPolyInt BasisPhys ComputeNodes ComputePost.
Import ListNotations.
Open Scope R_scope.
Notation length := List.length.
Arguments legP : simpl never.

(** Value at node p, for one axis. *)
Section Axis.
Variables (n : nat) (r : rule) (segs : list R) (q : rule).
Hypothesis Hr : gauss_ok n r.
Hypothesis Hs : edges_ok segs.
Hypothesis Hq : piecewise r segs = Ok q.
Variable g : geom.
Hypothesis Hg : geom_ok g.
Hypothesis Hgk : gknots g = segs.
Hypothesis Hgl : glen g = n.
Notation m := (length segs - 1)%nat.

Lemma split_index p : (p < m * n)%nat -> (p / n < m)%nat /\ (p mod n < n)%nat /\ (p / n * n + p mod n = p)%nat.
Proof.
  intros Hp. destruct Hr as (Hn & _). repeat split.
  - apply Nat.div_lt_upper_bound; lia.
  - apply Nat.mod_upper_bound; lia.
  - rewrite (Nat.mul_comm _ n). symmetry. apply Nat.div_mod. lia.
Qed.

Lemma at_node vec sy p : length vec = (m * n)%nat -> (p < m * n)%nat ->
  cval g (Col (collocate n r segs (sqrtw q) vec) sy) (nth p (rx q) 0) = nth p vec 0 / sqrt (nth p (rw q) 0).
Proof.
  intros Hv Hp. destruct (split_index p Hp) as (Hi & Hj & E).
  pose proof (interpolates n r segs q Hr Hs Hq g Hg Hgk Hgl vec sy _ _ Hv Hi Hj) as H. rewrite E in H. exact H.
Qed.

Lemma node_range p : (p < m * n)%nat -> gxmin g < nth p (rx q) 0 < gxmax g.
Proof.
  intros Hp. destruct (split_index p Hp) as (Hi & Hj & E).
  destruct (node_at n r segs q Hr Hs Hq _ _ Hi Hj) as [Ex _]. rewrite E in Ex.
  pose proof (seg_lt segs Hs _ Hi) as Hlt. cbv beta in Hlt. destruct (rule_node n r segs Hr _ Hj) as [Ht _].
  set (i := (p / n)%nat) in *. set (t := nth (p mod n) (rx r) 0) in *.
  assert (Hm : gnseg g = m). { destruct Hg as (_ & Hl & _). rewrite Hgk in Hl. lia. }
  pose proof (knot_le g Hg 0 i ltac:(lia)) as H1. pose proof (knot_le g Hg (S i) (gnseg g) ltac:(lia)) as H2.
  rewrite xmin_knot, xmax_knot. unfold knot in *. rewrite Hgk in *. rewrite Ex. nra.
Qed.
End Axis.

Lemma cval_map2_scale g (h : R -> R) (mk : list R -> col) sg us l x : (l < length sg)%nat -> (l < length us)%nat ->
  cval g (nth l (map2 (fun c u => scale_col (h c) (mk u)) sg us) col0) x = h (nth l sg 0) * cval g (mk (nth l us [])) x.
Proof. intros H1 H2. rewrite (map2_nth _ _ _ _ 0 [] col0) by auto. apply cval_scale. Qed.

Lemma sign_sqr sg l : Forall (fun c => c = 1 \/ c = -1) sg -> (l < length sg)%nat -> 1 / nth l sg 0 * nth l sg 0 = 1 /\ 1 / nth l sg 0 = nth l sg 0.
Proof.
  intros H Hl. rewrite Forall_forall in H. destruct (H (nth l sg 0) (nth_In _ _ Hl)) as [-> | ->]; split; field.
Qed.

Section Sampling.
Variables (legendre : nat -> res rule) (K : skern) (eps : R) (ng : option nat) (S : ssve).
Hypothesis HS : sampling_init legendre K eps ng = Ok S.
Hypothesis Hr : gauss_ok (s_n S) (s_rule S).
Hypothesis Hx2 : (2 <= length (s_segs_x S))%nat.
Hypothesis Hy2 : (2 <= length (s_segs_y S))%nat.
Notation mx := (length (s_segs_x S) - 1)%nat.
Notation my := (length (s_segs_y S) - 1)%nat.
Notation nx := (mx * s_n S)%nat.
Notation ny := (my * s_n S)%nat.

Lemma pieces_eq : piecewise (s_rule S) (s_segs_x S) = Ok (s_gx S) /\ piecewise (s_rule S) (s_segs_y S) = Ok (s_gy S).
Proof. apply sampling_init_inv in HS. tauto. Qed.

Lemma sizes : length (rx (s_gx S)) = nx /\ length (rw (s_gx S)) = nx /\ length (rx (s_gy S)) = ny /\ length (rw (s_gy S)) = ny.
Proof.
  destruct pieces_eq as [Ex Ey].
  destruct (node_lengths _ _ _ _ Hr (edges_x _ _ _ _ _ HS Hx2) Ex) as [-> ->].
  destruct (node_lengths _ _ _ _ Hr (edges_y _ _ _ _ _ HS Hy2) Ey) as [-> ->]. auto.
Qed.

Lemma weights_pos_x p : (p < nx)%nat -> 0 < nth p (rw (s_gx S)) 0.
Proof. destruct pieces_eq as [Ex Ey]. eapply weight_pos; eauto using edges_x. Qed.
Lemma weights_pos_y p : (p < ny)%nat -> 0 < nth p (rw (s_gy S)) 0.
Proof. destruct pieces_eq as [Ex Ey]. eapply weight_pos; eauto using edges_y. Qed.

(** The matrix handed to the SVD. *)
Lemma matrix_entry k M p q : s_mat S (s_gx S) (s_gy S) = Ok (sampled k (s_gx S) (s_gy S)) -> sampling_matrix S = Ok M ->
  (p < nx)%nat -> (q < ny)%nat ->
  ment M p q = k (nth p (rx (s_gx S)) 0) (nth q (rx (s_gy S)) 0) * sqrt (nth p (rw (s_gx S)) 0) * sqrt (nth q (rw (s_gy S)) 0).
Proof.
  intros Hk HM Hp Hq. unfold sampling_matrix in HM. rewrite Hk in HM. cbn [bind] in HM. injection HM as <-.
  destruct sizes as (L1 & L2 & L3 & L4). unfold ment, sampled, sqrtw.
  rewrite (map2_nth _ _ _ _ [] 0 []) by (rewrite !map_length; lia).
  rewrite (map2_nth _ _ _ _ 0 0 0) by (rewrite !map_length, ?(nth_map_in _ _ _ 0), ?map_length by lia; lia).
  rewrite !(nth_map_in sqrt _ _ 0) by lia.
  rewrite (nth_map_in _ _ p 0) by lia. rewrite (nth_map_in _ _ q 0) by (rewrite map_length; lia).
  rewrite (nth_map_in _ _ q 0) by lia. reflexivity.
Qed.

Variables (us : list (list R)) (s : list R) (vs : list (list R)) (r : sve_result).
Hypothesis Lus : length us = length s.
Hypothesis Lvs : length vs = length s.
Hypothesis Fus : Forall (fun u => length u = nx) us.
Hypothesis Fvs : Forall (fun v => length v = ny) vs.
Hypothesis Hpost : sampling_post S (us, s, vs) = Ok (Some r).

Lemma post_lengths : length (vcols (su r)) = length s /\ length (vcols (sv r)) = length s /\ ss r = s.
Proof.
  destruct (post_struct _ _ _ _ _ HS Hr Hx2 Hy2 us s vs r Lus Lvs Hpost) as (_ & _ & _ & _ & _ & _ & E & _ & _ & sg & L & _ & Eu & Ev & _).
  rewrite Eu, Ev, !map2_length. repeat split; auto; lia.
Qed.

(** Products of left and right function values at nodes. *)
Lemma product_at l p q : (l < length s)%nat -> (p < nx)%nat -> (q < ny)%nat ->
  cval (vgeom (su r)) (nth l (vcols (su r)) col0) (nth p (rx (s_gx S)) 0) *
  cval (vgeom (sv r)) (nth l (vcols (sv r)) col0) (nth q (rx (s_gy S)) 0) =
  nth p (nth l us []) 0 / sqrt (nth p (rw (s_gx S)) 0) * (nth q (nth l vs []) 0 / sqrt (nth q (rw (s_gy S)) 0)).
Proof.
  intros Hl Hp Hq.
  destruct (post_struct _ _ _ _ _ HS Hr Hx2 Hy2 us s vs r Lus Lvs Hpost) as (Fu & Fv & Ku & Kv & Gu & Gv & E & _ & _ & sg & L & Fsg & Eu & Ev & _).
  destruct pieces_eq as [Ex Ey]. rewrite Forall_forall in Fus, Fvs.
  rewrite Eu, Ev.
  rewrite (cval_map2_scale _ (fun c => 1 / c)) by lia. rewrite (cval_map2_scale _ (fun c => c)) by lia.
  unfold ucol, vcol.
  rewrite (at_node _ _ _ _ Hr (edges_x _ _ _ _ _ HS Hx2) Ex (vgeom (su r))) by (auto; try apply Fu; apply Fus, nth_In; lia).
  rewrite (at_node _ _ _ _ Hr (edges_y _ _ _ _ _ HS Hy2) Ey (vgeom (sv r))) by (auto; try apply Fv; apply Fvs, nth_In; lia).
  destruct (sign_sqr sg l Fsg ltac:(lia)) as [E1 _].
  match goal with |- ?a * ?x * (?b * ?y) = _ => transitivity (a * b * (x * y)); [ring|rewrite E1; ring] end.
Qed.

Lemma sum_at p q : (p < nx)%nat -> (q < ny)%nat ->
  sve_sum r (nth p (rx (s_gx S)) 0) (nth q (rx (s_gy S)) 0) =
  Ok (sumn (length s) (fun l => nth p (nth l us []) 0 * nth l s 0 * nth q (nth l vs []) 0) /
      (sqrt (nth p (rw (s_gx S)) 0) * sqrt (nth q (rw (s_gy S)) 0))).
Proof.
  intros Hp Hq.
  destruct (post_struct _ _ _ _ _ HS Hr Hx2 Hy2 us s vs r Lus Lvs Hpost) as (Fu & Fv & Ku & Kv & Gu & Gv & E & _).
  destruct post_lengths as (L1 & L2 & _). destruct pieces_eq as [Ex Ey].
  pose proof (node_range _ _ _ _ Hr (edges_x _ _ _ _ _ HS Hx2) Ex (vgeom (su r)) (proj1 Fu) Ku Gu p Hp).
  pose proof (node_range _ _ _ _ Hr (edges_y _ _ _ _ _ HS Hy2) Ey (vgeom (sv r)) (proj1 Fv) Kv Gv q Hq).
  rewrite sve_sum_ok by (auto; rewrite ?E; auto; lra). f_equal. unfold expand. rewrite E.
  unfold Rdiv. rewrite <- sumn_scal_r. apply sumn_ext. intros l Hl.
  rewrite Rmult_assoc, product_at by auto.
  pose proof (sqrt_lt_R0 _ (weights_pos_x p Hp)). pose proof (sqrt_lt_R0 _ (weights_pos_y q Hq)). field. lra.
Qed.

(** Inner products of the functions are those of the vectors, up to the sign for
    different functions. *)
Lemma orthonormal_u : orthonormal_vectors us -> orthonormal_functions (su r).
Proof.
  intros Ho.
  destruct (post_struct _ _ _ _ _ HS Hr Hx2 Hy2 us s vs r Lus Lvs Hpost) as (Fu & Fv & Ku & Kv & Gu & Gv & E & _ & R1 & sg & L & Fsg & Eu & Ev & _).
  destruct post_lengths as (L1 & L2 & _). destruct pieces_eq as [Ex Ey]. rewrite Forall_forall in Fus, Fvs.
  destruct Fu as (Hg & Hog & Hlg).
  intros l m f h Hf Hh.
  assert (Hin : forall l f, represents (su r) l f -> (l < length s)%nat).
  { intros l' f' H. rewrite <- L1. destruct (nth_error (vcols (su r)) l') eqn:E'; [apply nth_error_Some; congruence|].
    specialize (H 1 R1). unfold value in H. rewrite split_ok in H by auto. cbn [bind] in H.
    rewrite BasisPhys.pyindex_nat, E' in H. discriminate. }
  pose proof (Hin _ _ Hf) as Hl. pose proof (Hin _ _ Hh) as Hm. clear Hin.
  apply represents_cval in Hf as (c & Ec & Hc); auto; try lia. apply represents_cval in Hh as (d & Ed & Hd); auto; try lia.
  apply (nth_error_nth _ _ col0) in Ec, Ed. subst c d.
  pose proof (inner_vectors _ _ _ _ Hr (edges_x _ _ _ _ _ HS Hx2) Ex (vgeom (su r)) Hg Ku Gu (nth l us []) (nth m us []) 0 0
                ltac:(apply Fus, nth_In; lia) ltac:(apply Fus, nth_In; lia)) as HI.
  rewrite (Ho l m) in HI by lia.
  apply (is_RInt_scal (V := R_NormedModule) _ _ _ (1 / nth l sg 0 * (1 / nth m sg 0))) in HI.
  eapply is_RInt_ext_in; [left; apply xmin_lt_xmax; auto| |].
  2:{ eapply is_RInt_eq; [exact HI|]. destruct (Nat.eqb_spec l m) as [<-|].
      - destruct (sign_sqr sg l Fsg ltac:(lia)) as [E1 E2]. unfold scal; cbn; unfold mult; cbn. rewrite E2 at 2. rewrite E1. ring.
      - unfold scal; cbn; unfold mult; cbn. ring. }
  intros x Hx. cbv beta. rewrite <- Hc, <- Hd by lra. rewrite Eu.
  rewrite !(cval_map2_scale _ (fun c => 1 / c)) by lia. unfold ucol, scal; cbn; unfold mult; cbn. ring.
Qed.

Lemma orthonormal_v : orthonormal_vectors vs -> orthonormal_functions (sv r).
Proof.
  intros Ho.
  destruct (post_struct _ _ _ _ _ HS Hr Hx2 Hy2 us s vs r Lus Lvs Hpost) as (Fu & Fv & Ku & Kv & Gu & Gv & E & _ & R1 & sg & L & Fsg & Eu & Ev & _).
  destruct post_lengths as (L1 & L2 & _). destruct pieces_eq as [Ex Ey]. rewrite Forall_forall in Fus, Fvs.
  destruct Fv as (Hg & Hog & Hlg).
  intros l m f h Hf Hh.
  assert (Hin : forall l f, represents (sv r) l f -> (l < length s)%nat).
  { intros l' f' H. rewrite <- L2. destruct (nth_error (vcols (sv r)) l') eqn:E'; [apply nth_error_Some; congruence|].
    pose proof (xmin_lt_xmax _ Hg). specialize (H (gxmin (vgeom (sv r))) ltac:(lra)).
    unfold value in H. rewrite split_ok in H by (auto; lra). cbn [bind] in H.
    rewrite BasisPhys.pyindex_nat, E' in H. discriminate. }
  pose proof (Hin _ _ Hf) as Hl. pose proof (Hin _ _ Hh) as Hm. clear Hin.
  apply represents_cval in Hf as (c & Ec & Hc); auto; try lia. apply represents_cval in Hh as (d & Ed & Hd); auto; try lia.
  apply (nth_error_nth _ _ col0) in Ec, Ed. subst c d.
  pose proof (inner_vectors _ _ _ _ Hr (edges_y _ _ _ _ _ HS Hy2) Ey (vgeom (sv r)) Hg Kv Gv (nth l vs []) (nth m vs []) 0 0
                ltac:(apply Fvs, nth_In; lia) ltac:(apply Fvs, nth_In; lia)) as HI.
  rewrite (Ho l m) in HI by lia.
  apply (is_RInt_scal (V := R_NormedModule) _ _ _ (nth l sg 0 * nth m sg 0)) in HI.
  eapply is_RInt_ext_in; [left; apply xmin_lt_xmax; auto| |].
  2:{ eapply is_RInt_eq; [exact HI|]. destruct (Nat.eqb_spec l m) as [<-|].
      - destruct (sign_sqr sg l Fsg ltac:(lia)) as [E1 E2]. unfold scal; cbn; unfold mult; cbn. rewrite <- E2 at 1. rewrite E1. ring.
      - unfold scal; cbn; unfold mult; cbn. ring. }
  intros x Hx. cbv beta. rewrite <- Hc, <- Hd by lra. rewrite Ev.
  rewrite !(cval_map2_scale _ (fun c => c)) by lia. unfold vcol, scal; cbn; unfold mult; cbn. ring.
Qed.
End Sampling.

(** * The claims *)
Lemma sampling_reproduces legendre K eps ng S k M b r :
  sampling_init legendre K eps ng = Ok S -> gauss_ok (s_n S) (s_rule S) ->
  (2 <= length (s_segs_x S))%nat -> (2 <= length (s_segs_y S))%nat ->
  s_mat S (s_gx S) (s_gy S) = Ok (sampled k (s_gx S) (s_gy S)) ->
  sampling_matrix S = Ok M ->
  exact_svd (length (rx (s_gx S))) (length (rx (s_gy S))) M b ->
  sampling_post S b = Ok (Some r) ->
  (forall x y, In x (rx (s_gx S)) -> In y (rx (s_gy S)) -> sve_sum r x y = Ok (k x y)) /\
  orthonormal_functions (su r) /\ orthonormal_functions (sv r) /\
  ss r = snd (fst b) /\
  (forall l f, represents (su r) l f -> 0 < f 1).
Proof.
  intros HS Hr Hx2 Hy2 Hk HM Hb Hp. destruct b as [[us s] vs]. destruct Hb as (L1 & L2 & F1 & F2 & O1 & O2 & HA).
  destruct (sizes _ _ _ _ _ HS Hr Hx2 Hy2) as (N1 & N2 & N3 & N4). rewrite N1, N3 in *.
  split; [|split; [|split; [|split]]].
  - intros x y Hx Hy. apply (In_nth _ _ 0) in Hx as (p & Hp' & <-). apply (In_nth _ _ 0) in Hy as (q & Hq' & <-).
    rewrite N1 in Hp'. rewrite N3 in Hq'.
    rewrite (sum_at _ _ _ _ _ HS Hr Hx2 Hy2 us s vs r L1 L2 F1 F2 Hp p q Hp' Hq'). f_equal.
    rewrite <- HA by auto. rewrite (matrix_entry _ _ _ _ _ HS Hr Hx2 Hy2 k M p q Hk HM Hp' Hq').
    pose proof (sqrt_lt_R0 _ (weights_pos_x _ _ _ _ _ HS Hr Hx2 p Hp')).
    pose proof (sqrt_lt_R0 _ (weights_pos_y _ _ _ _ _ HS Hr Hy2 q Hq')). field. lra.
  - eapply (orthonormal_u _ _ _ _ _ HS Hr Hx2 Hy2 us s vs r); eassumption.
  - eapply (orthonormal_v _ _ _ _ _ HS Hr Hx2 Hy2 us s vs r); eassumption.
  - cbn. apply (post_struct _ _ _ _ _ HS Hr Hx2 Hy2 us s vs r L1 L2 Hp).
  - intros l f Hf.
    destruct (post_struct _ _ _ _ _ HS Hr Hx2 Hy2 us s vs r L1 L2 Hp) as (Fu & Fv & Ku & Kv & Gu & Gv & E & _ & R1 & sg & L & Fsg & Eu & Ev & Hpos).
    destruct Fu as (Hg & Hog & Hlg).
    assert (Hl : (l < length (vcols (su r)))%nat).
    { destruct (nth_error (vcols (su r)) l) eqn:E'; [apply nth_error_Some; congruence|].
      specialize (Hf 1 R1). unfold value in Hf. rewrite split_ok in Hf by auto. cbn [bind] in Hf.
      rewrite BasisPhys.pyindex_nat, E' in Hf. discriminate. }
    apply represents_cval in Hf as (c & Ec & Hc); auto; try lia.
    rewrite <- Hc by auto. apply (nth_error_nth _ _ col0) in Ec. rewrite <- Ec. apply Hpos.
    rewrite Eu, map2_length in Hl. lia.
Qed.
