(** Lemmas about decomposed matrices and the SVD libraries. *)
From Coq Require Import String ZArith Arith Bool Reals Lia Lra.
From Coquelicot Require Import Coquelicot.
From Coq Require Import List Sorted.
From Verif.Model Require Import Base Util Num FT SVE NDArray Sampling Decomp.
From Verif.Spec Require Import SSampling SDecomp.
From Verif.Proofs Require Import BaseFacts SumFacts FTFacts FTModel NDFacts LstsqFacts SamplingFacts SplitFacts SamplingProps.
Import ListNotations.
Open Scope R_scope.
Notation length := List.length.

Lemma fits_check A r : fits A (r_u r) (r_s r) (r_vh r) ->
  check_svd_result [mr (r_u r); mc (r_u r)] [length (r_s r)] [mr (r_vh r); mc (r_vh r)] (Some (mr A, mc A)) = Ok (mr A, length (r_s r), mc A).
Proof. intros (-> & -> & -> & ->). unfold check_svd_result. now rewrite !Nat.eqb_refl. Qed.

Lemma check_fits A r x :
  check_svd_result [mr (r_u r); mc (r_u r)] [length (r_s r)] [mr (r_vh r); mc (r_vh r)] (Some (mr A, mc A)) = Ok x ->
  fits A (r_u r) (r_s r) (r_vh r).
Proof.
  unfold check_svd_result, fits. intros H.
  destruct (Nat.eqb_spec (mc (r_u r)) (length (r_s r))); [|discriminate].
  destruct (Nat.eqb_spec (length (r_s r)) (mr (r_vh r))); [|discriminate].
  destruct (Nat.eqb_spec (mr (r_u r)) (mr A)); [|discriminate].
  destruct (Nat.eqb_spec (mc (r_vh r)) (mc A)); [|discriminate]. auto.
Qed.

Lemma check_raises A r :
  ~ fits A (r_u r) (r_s r) (r_vh r) ->
  check_svd_result [mr (r_u r); mc (r_u r)] [length (r_s r)] [mr (r_vh r); mc (r_vh r)] (Some (mr A, mc A)) = Raise ValueError.
Proof.
  unfold check_svd_result, fits. intros H.
  destruct (Nat.eqb_spec (mc (r_u r)) (length (r_s r))); [|reflexivity].
  destruct (Nat.eqb_spec (length (r_s r)) (mr (r_vh r))); [|reflexivity].
  destruct (Nat.eqb_spec (mr (r_u r)) (mr A)); [|reflexivity].
  destruct (Nat.eqb_spec (mc (r_vh r)) (mc A)); [|reflexivity]. cbn. exfalso. apply H. auto.
Qed.

(** Dropping the zeros keeps the product and the shapes. *)
Lemma drop_fits A r : fits A (r_u r) (r_s r) (r_vh r) ->
  let r' := drop_zeros r in
  fits A (r_u r') (r_s r') (r_vh r') /\
  (forall i l, product (r_u r') (r_s r') (r_vh r') i l = product (r_u r) (r_s r) (r_vh r) i l) /\
  (forall x, In x (r_s r') <-> In x (r_s r) /\ x <> 0).
Proof.
  intros (Hu & Hk & Hv & Hl). cbv zeta. split; [|split].
  - unfold drop_zeros. destruct (forallb _ _) eqn:E; [repeat split; assumption|].
    unfold fits, sel_cols, sel_rows. cbn [r_u r_s r_vh mr mc]. rewrite Hk, Hv, mask_kept, mask_kept_s, map_length. auto.
  - intros i l. unfold drop_zeros. destruct (forallb _ _) eqn:E; [reflexivity|].
    unfold product, sel_cols, sel_rows. cbn [r_u r_s r_vh mr mc me]. rewrite Hk, Hv, mask_kept, mask_kept_s, map_length.
    symmetry. rewrite (csumn_filter (fun k => negb (Reqb (nth k (r_s r) 0) 0))).
    + fold (kept (r_s r)). apply csumn_ext. intros j Hj.
      rewrite (nth_indep (map _ _) 0 (nth 0 (r_s r) 0)) by now rewrite map_length.
      now rewrite (map_nth (fun k => nth k (r_s r) 0)).
    + intros k Hkk Hz. destruct (Reqb_spec (nth k (r_s r) 0) 0) as [Ez|]; [|discriminate]. rewrite Ez. ring.
  - intros x. rewrite r_s_drop, filter_In. destruct (Reqb_spec x 0); cbn; intuition congruence.
Qed.

Lemma conj2 m i k : me (adjoint (adjoint m)) i k = me m i k.
Proof. cbn. apply C_eq; unfold Cconj, Re, Im; cbn; [reflexivity|ring]. Qed.

Lemma product_conj2 u s vh i l : product (adjoint (adjoint u)) s (adjoint (adjoint vh)) i l = product u s vh i l.
Proof. unfold product. apply csumn_ext. intros k _. now rewrite !conj2. Qed.

Section Dec.
Variables (svd : mat -> svd_result) (a : nd C).
Let A := nd_mat a.

Definition source (given : option svd_result) : svd_result := match given with None => svd A | Some r => r end.

Lemma dec_inv given d : decomposed_array svd a given = Ok d ->
  ndim a = 2%nat /\ d = of_core A (drop_zeros (source given)) /\
  (forall r, given = Some r -> fits A (r_u r) (r_s r) (r_vh r)).
Proof.
  unfold decomposed_array. destruct (Nat.eqb_spec (ndim a) 2) as [E|]; [|discriminate]. cbn [negb].
  fold A. unfold decomposed, source. intros H. split; [exact E|].
  destruct given as [r|].
  - destruct (check_svd_result _ _ _ _) eqn:Ec; [|discriminate]. cbn [bind] in H. injection H as <-.
    split; [reflexivity|]. intros r' [= <-]. now apply check_fits in Ec.
  - cbn [bind] in H. injection H as <-. split; [reflexivity|]. discriminate.
Qed.

Lemma dec_exists given : ndim a = 2%nat -> (forall r, given = Some r -> fits A (r_u r) (r_s r) (r_vh r)) ->
  exists d, decomposed_array svd a given = Ok d.
Proof.
  intros E H. unfold decomposed_array. rewrite E. cbn [negb Nat.eqb]. fold A. unfold decomposed.
  destruct given as [r|]; [|now eexists]. rewrite (fits_check A r) by now apply H. now eexists.
Qed.

Lemma dec_raises given : ndim a <> 2%nat \/ (exists r, given = Some r /\ ~ fits A (r_u r) (r_s r) (r_vh r)) ->
  decomposed_array svd a given = Raise ValueError.
Proof.
  unfold decomposed_array. destruct (Nat.eqb_spec (ndim a) 2) as [E|]; [|reflexivity]. cbn [negb]. fold A.
  intros [F|(r & -> & H)]; [congruence|]. unfold decomposed. now rewrite check_raises.
Qed.

Lemma dec_product given d : decomposed_array svd a given = Ok d ->
  let r := source given in
  fits A (r_u r) (r_s r) (r_vh r) ->
  d_a d = A /\ fits A (dec_u d) (d_s d) (dec_vH d) /\
  (forall i l, product (dec_u d) (d_s d) (dec_vH d) i l = product (r_u r) (r_s r) (r_vh r) i l) /\
  (forall x, In x (d_s d) <-> In x (r_s r) /\ x <> 0).
Proof.
  intros H r Hf. apply dec_inv in H. destruct H as (_ & -> & _). fold r.
  destruct (drop_fits A r Hf) as ((F1 & F2 & F3 & F4) & P & I).
  split; [reflexivity|]. split; [|split; [|exact I]].
  - unfold fits, dec_u, dec_vH, of_core. cbn. auto.
  - intros i l. unfold dec_u, dec_vH, of_core; cbn [d_uH d_s d_v]. rewrite product_conj2. apply P.
Qed.

Lemma dec_svd given d : decomposed_array svd a given = Ok d -> is_svd A (source given) ->
  is_svd A (SVDRes (dec_u d) (d_s d) (dec_vH d)) /\ Forall (fun x => 0 < x) (d_s d).
Proof.
  intros H Hs. pose proof (core_of_svd _ _ Hs) as (C1 & C2 & C3 & C4 & C5 & C6 & C7 & C8).
  apply dec_inv in H. destruct H as (_ & -> & _).
  set (r := source given) in *. destruct Hs as (_ & _ & _ & _ & _ & _ & Hp & Ho).
  assert (In1 : forall x, In x (r_s (drop_zeros r)) -> 0 < x).
  { intros x Hx. rewrite r_s_drop, filter_In in Hx. destruct Hx as [Hx Hz].
    destruct (Reqb_spec x 0); [discriminate|]. apply In_nth with (d := 0) in Hx. destruct Hx as (k & Hk & <-).
    specialize (Hp k Hk). lra. }
  split; [|now apply Forall_forall].
  unfold is_svd, of_core, dec_u, dec_vH. cbn [r_u r_s r_vh d_uH d_v d_s].
  split; [exact C1|]. split; [exact C2|]. split; [exact C3|]. split; [exact C4|].
  split; [|split; [|split]].
  - intros k k' H1 H2. split.
    + rewrite <- (C5 k k' H1 H2). apply csumn_ext. intros i _. now rewrite !conj2.
    + rewrite <- (C6 k k' H1 H2). apply csumn_ext. intros i _. now rewrite !conj2.
  - intros i l Hi Hl. rewrite (C7 i l Hi Hl). apply csumn_ext. intros k _. now rewrite !conj2.
  - intros k Hk. left. apply In1. now apply nth_In.
  - pose proof (sorted_filter _ (fun x => negb (Reqb x 0)) _ (nth_sorted _ Ho)) as SS. rewrite <- r_s_drop in SS.
    revert SS. generalize (r_s (drop_zeros r)). clear. intros s SS k Hk.
    revert k Hk. induction s as [|x s IH]; intros k Hk; [cbn in Hk; lia|].
    apply StronglySorted_inv in SS. destruct SS as [SS F].
    destruct k as [|k]; [|apply IH; [assumption|cbn in Hk; lia]].
    cbn. rewrite Forall_forall in F. assert (In (nth 0 s 0) s) as I by (apply nth_In; cbn in Hk; lia).
    specialize (F _ I). lra.
Qed.

Lemma dec_cond_zero d : decomposed_array svd a None = Ok d -> is_svd A (svd A) ->
  (cond_of (d_s d) = Raise IndexError <-> forall i l, (i < mr A)%nat -> (l < mc A)%nat -> me A i l = RtoC 0).
Proof.
  intros H Hs. pose proof (dec_svd None d H Hs) as (S & P).
  destruct S as (Su & Sk & Sv & Sl & So & Sf & _ & _). cbn [r_u r_s r_vh] in *.
  split.
  - intros E i l Hi Hl. rewrite (Sf i l Hi Hl).
    assert (E0 : length (d_s d) = 0%nat) by (unfold cond_of in E; destruct (d_s d); [reflexivity|discriminate]).
    rewrite E0. reflexivity.
  - intros Z. destruct (d_s d) as [|s0 s] eqn:Es; [reflexivity|]. exfalso.
    inversion P as [|? ? P0 _]; subst.
    (* s0 = u0^H A v0 = 0 *)
    assert (K0 : (0 < length (s0 :: s))%nat) by (cbn; lia).
    assert (Q : csumn (mr A) (fun i => Cmult (Cconj (me (dec_u d) i 0)) (csumn (mc A) (fun l => Cmult (me A i l) (Cconj (me (dec_vH d) 0 l))))) = RtoC s0).
    { rewrite (csumn_ext (mr A) _ (fun i => Cmult (Cconj (me (dec_u d) i 0)) (Cmult (RtoC s0) (me (dec_u d) i 0)))).
      - rewrite (csumn_ext (mr A) _ (fun i => Cmult (RtoC s0) (Cmult (Cconj (me (dec_u d) i 0)) (me (dec_u d) i 0)))) by (intros; ring).
        rewrite csumn_scal, (proj1 (So 0%nat 0%nat K0 K0)). unfold delta; cbn. ring.
      - intros i Hi. f_equal.
        rewrite (csumn_ext (mc A) _ (fun l => csumn (length (s0 :: s)) (fun k => Cmult (Cmult (me (dec_u d) i k) (RtoC (nth k (s0 :: s) 0))) (Cmult (me (dec_vH d) k l) (Cconj (me (dec_vH d) 0 l)))))).
        + rewrite csumn_swap.
          rewrite (csumn_ext (length (s0 :: s)) _ (fun k => Cmult (Cmult (me (dec_u d) i k) (RtoC (nth k (s0 :: s) 0))) (delta k 0))).
          * rewrite (csumn_single _ _ 0%nat K0); [unfold delta; cbn; ring|].
            intros k Hk N. unfold delta. destruct (Nat.eqb_spec k 0); [congruence|ring].
          * intros k Hk. rewrite csumn_scal. f_equal. apply So; assumption.
        + intros l Hl. rewrite (Sf i l Hi Hl), <- csumn_scal_r. apply csumn_ext. intros k _. ring. }
    rewrite (csumn_ext (mr A) _ (fun _ => RtoC 0)) in Q.
    + rewrite csumn_zero in Q by reflexivity. injection Q as Q. lra.
    + intros i Hi. rewrite (csumn_ext (mc A) _ (fun _ => RtoC 0)) by (intros l Hl; rewrite (Z i l Hi Hl); ring).
      rewrite csumn_zero by reflexivity. ring.
Qed.
End Dec.
