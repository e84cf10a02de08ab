(** Lemmas about decomposed matrices. *)
From Coq Require Import ZArith Arith Bool Reals Lia Lra.
From Coquelicot Require Import Coquelicot.
From Coq Require Import List Sorted.
From Verif.Model Require Import Base Util Num FT NDArray Sampling.
From Verif.Spec Require Import SSampling.
From Verif.Proofs Require Import BaseFacts SumFacts FTFacts FTModel NDFacts LstsqFacts KernelFacts.
Import ListNotations.
Open Scope R_scope.

Lemma Reqb_spec x y : reflect (x = y) (Reqb x y).
Proof. unfold Reqb. destruct (Req_EM_T x y); constructor; assumption. Qed.

(** A thin decomposition without vanishing singular values. *)
Definition is_core (A : mat) (r : svd_result) : Prop :=
  let K := length (r_s r) in
  mr (r_u r) = mr A /\ mc (r_u r) = K /\ mr (r_vh r) = K /\ mc (r_vh r) = mc A /\
  (forall k k', (k < K)%nat -> (k' < K)%nat ->
     csumn (mr A) (fun i => Cmult (Cconj (me (r_u r) i k)) (me (r_u r) i k')) = delta k k') /\
  (forall k k', (k < K)%nat -> (k' < K)%nat ->
     csumn (mc A) (fun l => Cmult (me (r_vh r) k l) (Cconj (me (r_vh r) k' l))) = delta k k') /\
  (forall i l, (i < mr A)%nat -> (l < mc A)%nat ->
     me A i l = csumn K (fun k => Cmult (me (r_u r) i k) (Cmult (RtoC (nth k (r_s r) 0)) (me (r_vh r) k l)))) /\
  (forall k, (k < K)%nat -> nth k (r_s r) 0 <> 0).

Definition kept (s : list R) : list nat := filter (fun k => negb (Reqb (nth k s 0) 0)) (seq 0 (length s)).

Lemma map_seq_nth {B} (f : R -> B) s : map f s = map (fun k => f (nth k s 0)) (seq 0 (length s)).
Proof. rewrite <- (map_nth_seq 0 s) at 1. now rewrite map_map. Qed.

Lemma mask_kept s : mask (map (fun x => negb (Reqb x 0)) s) (seq 0 (length s)) = kept s.
Proof. rewrite map_seq_nth. unfold kept. apply mask_map_filter. Qed.

Lemma mask_map {A B} (f : A -> B) m l : mask m (map f l) = map f (mask m l).
Proof. revert l; induction m as [|b m IH]; intros [|x l]; cbn; try reflexivity. rewrite IH. now destruct b. Qed.

Lemma mask_kept_s s : mask (map (fun x => negb (Reqb x 0)) s) s = map (fun k => nth k s 0) (kept s).
Proof. rewrite <- (mask_kept s), <- mask_map. now rewrite map_nth_seq. Qed.

Lemma csumn_filter p n F : (forall k, (k < n)%nat -> p k = false -> F k = RtoC 0) ->
  csumn n F = csumn (length (filter p (seq 0 n))) (fun j => F (nth j (filter p (seq 0 n)) 0%nat)).
Proof.
  intros H. induction n as [|n IH]; [reflexivity|].
  rewrite csumn_S, IH by (intros; apply H; [lia|assumption]).
  rewrite seq_S, filter_app, Nat.add_0_l. cbn [filter].
  destruct (p n) eqn:E.
  - rewrite app_length; cbn [length]. rewrite Nat.add_1_r, csumn_S. f_equal.
    + apply csumn_ext. intros i Hi. now rewrite app_nth1.
    + now rewrite nth_app_exact.
  - rewrite app_nil_r, (H n) by (auto; lia). ring.
Qed.

Lemma kept_in s j : (j < length (kept s))%nat -> (nth j (kept s) 0 < length s)%nat /\ nth (nth j (kept s) 0%nat) s 0 <> 0.
Proof.
  intros H. pose proof (nth_In _ 0%nat H) as I. unfold kept in I at 2. apply filter_In in I.
  destruct I as [I1 I2]. apply in_seq in I1. split; [lia|].
  destruct (Reqb_spec (nth (nth j (kept s) 0%nat) s 0) 0); [discriminate|assumption].
Qed.

Lemma kept_delta s j j' : (j < length (kept s))%nat -> (j' < length (kept s))%nat ->
  delta (nth j (kept s) 0%nat) (nth j' (kept s) 0%nat) = delta j j'.
Proof.
  intros H H'. unfold delta. destruct (Nat.eqb_spec j j') as [->|N]; [now rewrite Nat.eqb_refl|].
  destruct (Nat.eqb_spec (nth j (kept s) 0%nat) (nth j' (kept s) 0%nat)) as [E|_]; [|reflexivity].
  exfalso. apply N. eapply NoDup_nth; eauto. apply NoDup_filter, seq_NoDup.
Qed.

Lemma kept_all s : forallb (fun b => b) (map (fun x => negb (Reqb x 0)) s) = true -> forall k, (k < length s)%nat -> nth k s 0 <> 0.
Proof.
  intros H k Hk. rewrite forallb_forall in H.
  specialize (H (negb (Reqb (nth k s 0) 0))). destruct (Reqb_spec (nth k s 0) 0) as [E|N]; [|assumption].
  assert (D : negb true = true); [|discriminate]. apply H. apply in_map_iff. exists (nth k s 0).
  split; [|now apply nth_In]. destruct (Reqb_spec (nth k s 0) 0); [reflexivity|congruence].
Qed.

Lemma core_of_svd A r : is_svd A r -> is_core A (drop_zeros r).
Proof.
  intros (Hu & Hk & Hv & Hl & Ho & Hf & Hp & Hs). unfold drop_zeros, is_core.
  destruct (forallb _ _) eqn:E.
  - repeat match goal with |- _ /\ _ => split end; auto; try (intros; now apply Ho). now apply kept_all.
  - assert (Kn : mask (map (fun x => negb (Reqb x 0)) (r_s r)) (seq 0 (mc (r_u r))) = kept (r_s r)) by (rewrite Hk; apply mask_kept).
    assert (Kv : mask (map (fun x => negb (Reqb x 0)) (r_s r)) (seq 0 (mr (r_vh r))) = kept (r_s r)) by (rewrite Hv; apply mask_kept).
    assert (Sn : forall j, (j < length (kept (r_s r)))%nat -> nth j (map (fun k => nth k (r_s r) 0) (kept (r_s r))) 0 = nth (nth j (kept (r_s r)) 0%nat) (r_s r) 0).
    { intros j Hj. rewrite (nth_indep _ 0 (nth 0 (r_s r) 0)) by now rewrite map_length.
      now rewrite (map_nth (fun k => nth k (r_s r) 0)). }
    unfold sel_cols, sel_rows. cbn [r_u r_s r_vh]. rewrite Kn, Kv, mask_kept_s, map_length.
    cbn [mr mc me]. repeat match goal with |- _ /\ _ => split end; auto.
    + intros k k' H1 H2. rewrite <- (kept_delta (r_s r)) by assumption. apply Ho; now apply kept_in.
    + intros k k' H1 H2. rewrite <- (kept_delta (r_s r)) by assumption. apply Ho; now apply kept_in.
    + intros i l Hi Hl'. rewrite Hf by assumption. unfold kept.
      rewrite (csumn_filter (fun k => negb (Reqb (nth k (r_s r) 0) 0))).
      * fold (kept (r_s r)). apply csumn_ext. intros j Hj. now rewrite Sn.
      * intros k Hkk Hz. destruct (Reqb_spec (nth k (r_s r) 0) 0) as [Ez|]; [|discriminate]. rewrite Ez. ring.
    + intros k H1. rewrite Sn by assumption. now apply kept_in.
Qed.

(** The function fit applies to each slice. *)
Definition fit_fun (d : dmat) (x : nat -> C) : nat -> C :=
  apply_mat (d_v d) (fun k => Cdiv (apply_mat (d_uH d) x k) (RtoC (nth k (d_s d) 0))).

Lemma acts_div_mm v s N : mc v = N -> acts (fun r => mm v (div_rows s r)) N (mr v)
  (fun c => apply_mat v (fun k => Cdiv (c k) (RtoC (nth k s 0)))).
Proof.
  intros <- r. pose proof (acts_mm v (div_rows s r)) as H.
  change (shp (div_rows s r)) with (shp r) in H. change (ndim (div_rows s r)) with (ndim r) in H.
  destruct (_ && _) eqn:E; [|exact H]. destruct H as (y & E1 & Sy & Ey).
  exists y. split; [exact E1|]. split; [exact Sy|]. intros idx Hi. rewrite Ey by exact Hi.
  apply ext_apply_mat. intros l. unfold div_rows; cbn [elt]. f_equal. f_equal.
  apply andb_prop in E. destruct E as [E _]. apply Nat.leb_le in E.
  replace (if (1 <? ndim r)%nat then (ndim r - 2)%nat else 0%nat) with (self_axis (ndim r)).
  - rewrite set_nth_nth; [reflexivity|]. rewrite Hi. fold (ndim r). pose proof (self_axis_lt _ E). lia.
  - unfold self_axis. destruct (Nat.ltb_spec 1 (ndim r)); lia.
Qed.

Lemma acts_ext op L N f g : (forall x i, f x i = g x i) -> acts op L N f -> acts op L N g.
Proof.
  intros E H x. specialize (H x). destruct (_ && _); [|exact H]. destruct H as (y & E1 & Sy & Ey).
  exists y. split; [exact E1|]. split; [exact Sy|]. intros idx Hi. rewrite <- E. now apply Ey.
Qed.

Lemma ext_div v s : extensional (fun c => apply_mat v (fun k => Cdiv (c k) (RtoC (nth k s 0)))).
Proof. intros g h i E. apply ext_apply_mat. intros l. now rewrite E. Qed.

Lemma acts_lstsq d N : mc (d_v d) = mr (d_uH d) -> mc (d_uH d) = N -> acts (d_lstsq d) N (mr (d_v d)) (fit_fun d).
Proof.
  intros H <-. unfold d_lstsq, fit_fun.
  refine (acts_comp (mm (d_uH d)) (fun r => mm (d_v d) (div_rows (d_s d) r)) _ _ _ _ _ (acts_mm _) (acts_div_mm _ _ _ H)
            (ext_apply_mat _) (ext_div _ _)).
Qed.

Lemma ext_fit d : extensional (fit_fun d).
Proof.
  intros g h i E. unfold fit_fun. apply (ext_div (d_v d) (d_s d)). intros k. now apply ext_apply_mat.
Qed.

Definition of_core (A : mat) (r : svd_result) : dmat := DMat A (adjoint (r_u r)) (r_s r) (adjoint (r_vh r)).

Lemma fit_fun_sol A r x l : is_core A r ->
  fit_fun (of_core A r) x l = sol (mr A) (length (r_s r)) (me (r_u r)) (me (r_vh r)) (fun k => nth k (r_s r) 0) x l.
Proof.
  intros (Hu & Hk & Hv & Hl & _). unfold fit_fun, of_core, sol, Up, apply_mat, adjoint; cbn [d_uH d_s d_v mr mc me].
  rewrite Hv, Hu. reflexivity.
Qed.

Lemma residual2_ext A x g h : (forall l, (l < mc A)%nat -> g l = h l) -> residual2 A g x = residual2 A h x.
Proof.
  intros H. unfold residual2. apply norm2_ext. intros i _. f_equal. unfold apply_mat. apply csumn_ext.
  intros l Hl. now rewrite H.
Qed.

Lemma core_lsq A r x : is_core A r -> least_squares A x (fit_fun (of_core A r) x).
Proof.
  intros Hc h. pose proof Hc as (Hu & Hk & Hv & Hl & Hou & How & Hf & Hz).
  pose proof (sol_lsq (mr A) (mc A) (length (r_s r)) (me A) (me (r_u r)) (me (r_vh r)) (fun k => nth k (r_s r) 0) Hou How Hf Hz x h) as H.
  cbv zeta in H.
  set (y := sol _ _ _ _ _ _) in H.
  change (norm2 (mr A) (fun i => Cminus (Ap (mc A) (me A) y i) (x i))) with (residual2 A y x) in H.
  change (norm2 (mr A) (fun i => Cminus (Ap (mc A) (me A) h i) (x i))) with (residual2 A h x) in H.
  assert (E : forall l, fit_fun (of_core A r) x l = y l) by (intros; now apply fit_fun_sol).
  rewrite (residual2_ext A x _ y) by auto. rewrite (norm2_ext _ (fit_fun _ x) y) by auto.
  destruct H as [H1 H2]. split; [exact H1|]. intros H3. destruct (H2 H3) as [H4 H5].
  split; [exact H4|]. intros H6 l Hl'. rewrite E. auto.
Qed.

Lemma lsq_recovers A g x y : least_squares A x y -> full_rank A ->
  (forall i, (i < mr A)%nat -> x i = apply_mat A g i) -> forall l, (l < mc A)%nat -> y l = g l.
Proof.
  intros Hy Hr Hx l Hl. destruct (Hy g) as [H _].
  assert (Z : residual2 A g x = 0).
  { unfold residual2. apply sumn_zero. intros i Hi. rewrite Hx by assumption.
    replace (Cminus _ _) with (RtoC 0) by ring. rewrite Cmod_0. ring. }
  assert (Zy : residual2 A y x = 0).
  { pose proof (norm2_nonneg (mr A) (fun i => Cminus (apply_mat A y i) (x i))). unfold residual2 in *. lra. }
  apply Ceq_minus. apply (Hr (fun l => Cminus (y l) (g l))); [|assumption].
  intros i Hi. pose proof (norm2_zero _ _ Zy i Hi) as E. cbv beta in E. rewrite Hx in E by assumption.
  unfold apply_mat in *. rewrite (csumn_ext _ _ (fun l => Cminus (Cmult (me A i l) (y l)) (Cmult (me A i l) (g l)))) by (intros; ring).
  now rewrite csumn_minus.
Qed.

Lemma decomposed_none svd A : decomposed svd A None = Ok (of_core A (drop_zeros (svd A))).
Proof. reflexivity. Qed.
