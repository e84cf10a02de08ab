(** Lemmas about decompositions of the stacked real and imaginary parts. *)
From Coq Require Import ZArith Arith Bool Reals Lia Lra.
From Coquelicot Require Import Coquelicot.
From Coq Require Import List Sorted.
From Verif.Model Require Import Base Util Num FT NDArray Sampling.
From Verif.Spec Require Import SSampling.
From Verif.Proofs Require Import BaseFacts SumFacts FTFacts FTModel NDFacts LstsqFacts SamplingFacts.
Import ListNotations.
Open Scope R_scope.

Definition split_with (n off : nat) (r : svd_result) : svd_result :=
  SVDRes (Mat n (length (r_s r))
              (fun i k => (Re (me (r_u r) i k),
                           if (i <? off)%nat then 0 else Re (me (r_u r) (n + (i - off)) k))))
         (r_s r) (r_vh r).

Lemma mask_len {A B} m (l : list A) (l' : list B) : length l = length l' -> length (mask m l) = length (mask m l').
Proof.
  revert l l'; induction m as [|b m IH]; intros [|x l] [|y l'] H; cbn in *; try lia; try reflexivity.
  destruct b; cbn; [f_equal|]; apply IH; lia.
Qed.

Lemma drop_split n off r : mc (r_u r) = length (r_s r) ->
  drop_zeros (split_with n off r) = split_with n off (drop_zeros r).
Proof.
  intros H. unfold drop_zeros, split_with at 1 2 3 4 5. cbn [r_s r_u r_vh]. destruct (forallb _ _) eqn:E; [reflexivity|].
  unfold sel_cols, split_with. cbn [r_s r_u r_vh mc mr me]. rewrite H.
  rewrite (mask_len _ (seq 0 (length (r_s r))) (r_s r)) by apply seq_length. reflexivity.
Qed.

Lemma drop_zeros_real A r : is_real_svd A r ->
  is_core A (drop_zeros r) /\
  (forall i k, (i < mr A)%nat -> (k < length (r_s (drop_zeros r)))%nat -> Im (me (r_u (drop_zeros r)) i k) = 0) /\
  (forall k l, (k < length (r_s (drop_zeros r)))%nat -> (l < mc A)%nat -> Im (me (r_vh (drop_zeros r)) k l) = 0).
Proof.
  intros (Hs & Hu & Hv). split; [now apply core_of_svd|].
  destruct Hs as (_ & Hk & Hkv & _). unfold drop_zeros. destruct (forallb _ _) eqn:E; [now split|].
  unfold sel_cols, sel_rows. cbn [r_s r_u r_vh mc mr me]. rewrite Hk, Hkv, mask_kept, mask_kept_s, map_length.
  split; intros; [apply Hu|apply Hv]; auto; now apply kept_in.
Qed.

Definition sfit_fun (d : sdmat) (x : nat -> C) : nat -> C :=
  apply_mat (sd_v d) (fun k => Cdiv (Cplus (apply_mat (sd_urT d) (fun i => RtoC (Re (x i))) k)
                                           (apply_mat (sd_uiT d) (fun i => RtoC (Im (x i))) k))
                                    (RtoC (nth k (sd_s d) 0))).

Lemma acts_map_mm m h : acts (fun x => mm m (nd_map h x)) (mc m) (mr m) (fun x => apply_mat m (fun i => h (x i))).
Proof.
  intros x. pose proof (acts_mm m (nd_map h x)) as H.
  change (shp (nd_map h x)) with (shp x) in H. change (ndim (nd_map h x)) with (ndim x) in H. exact H.
Qed.

Lemma acts_add op1 op2 L N f1 f2 : acts op1 L N f1 -> acts op2 L N f2 ->
  acts (fun x => do r1 <- op1 x; do r2 <- op2 x; Ok (nd_add r1 r2)) L N (fun x i => Cplus (f1 x i) (f2 x i)).
Proof.
  intros H1 H2 x. specialize (H1 x). specialize (H2 x). destruct (_ && _) eqn:E; [|now rewrite H1].
  destruct H1 as (y1 & -> & S1 & E1), H2 as (y2 & -> & S2 & E2). cbn [bind].
  eexists; split; [reflexivity|]. split; [exact S1|]. intros idx Hi. unfold nd_add; cbn [elt]. now rewrite E1, E2.
Qed.

Lemma ext_split d : extensional (sfit_fun d).
Proof.
  intros g h i E. unfold sfit_fun. apply ext_apply_mat. intros k.
  rewrite (ext_apply_mat (sd_urT d) _ (fun i => RtoC (Re (h i)))) by (intros; now rewrite E).
  rewrite (ext_apply_mat (sd_uiT d) _ (fun i => RtoC (Im (h i)))) by (intros; now rewrite E). reflexivity.
Qed.

Lemma acts_slstsq d N : mc (sd_v d) = mr (sd_urT d) -> mr (sd_uiT d) = mr (sd_urT d) ->
  mc (sd_urT d) = N -> mc (sd_uiT d) = N -> acts (sd_lstsq d) N (mr (sd_v d)) (sfit_fun d).
Proof.
  intros H1 H2 H3 H4.
  assert (A2 : acts (fun x => mm (sd_uiT d) (nd_map (fun z => RtoC (Im z)) x)) N (mr (sd_urT d))
                    (fun x => apply_mat (sd_uiT d) (fun i => RtoC (Im (x i))))).
  { rewrite <- H2, <- H4. exact (acts_map_mm (sd_uiT d) (fun z => RtoC (Im z))). }
  assert (A1 : acts (fun x => mm (sd_urT d) (nd_map (fun z => RtoC (Re z)) x)) N (mr (sd_urT d))
                    (fun x => apply_mat (sd_urT d) (fun i => RtoC (Re (x i))))).
  { rewrite <- H3. exact (acts_map_mm (sd_urT d) (fun z => RtoC (Re z))). }
  pose proof (acts_comp _ (fun r => mm (sd_v d) (div_rows (sd_s d) r)) _ _ _ _ _ (acts_add _ _ _ _ _ _ A1 A2) (acts_div_mm (sd_v d) (sd_s d) _ H1)) as H.
  assert (X : acts (fun x => do r <- (do r1 <- mm (sd_urT d) (nd_map (fun z => RtoC (Re z)) x);
                                      do r2 <- mm (sd_uiT d) (nd_map (fun z => RtoC (Im z)) x); Ok (nd_add r1 r2));
                             mm (sd_v d) (div_rows (sd_s d) r)) N (mr (sd_v d)) (sfit_fun d)).
  { apply H.
    - intros g h i E. f_equal; apply ext_apply_mat; intros; now rewrite E.
    - apply ext_div. }
  intros x. specialize (X x). cbv beta in X. unfold sd_lstsq.
  destruct (mm (sd_urT d) _); [|exact X]. cbn [bind] in *.
  destruct (mm (sd_uiT d) _); exact X.
Qed.

Lemma csumn_off n off F : csumn n (fun i => if (i <? off)%nat then RtoC 0 else F (i - off)%nat) = csumn (n - off) F.
Proof.
  induction n as [|n IH]; [reflexivity|]. rewrite csumn_S, IH.
  destruct (Nat.ltb_spec n off).
  - replace (S n - off)%nat with 0%nat by lia. replace (n - off)%nat with 0%nat by lia. cbn. ring.
  - replace (S n - off)%nat with (S (n - off)) by lia. rewrite csumn_S. reflexivity.
Qed.

Lemma sumn_off n off F : sumn n (fun i => if (i <? off)%nat then 0 else F (i - off)%nat) = sumn (n - off) F.
Proof.
  induction n as [|n IH]; [reflexivity|]. rewrite sumn_S, IH.
  destruct (Nat.ltb_spec n off).
  - replace (S n - off)%nat with 0%nat by lia. replace (n - off)%nat with 0%nat by lia. cbn. ring.
  - replace (S n - off)%nat with (S (n - off)) by lia. rewrite sumn_S. reflexivity.
Qed.

Definition stack_data (n off : nat) (x : nat -> C) (i : nat) : C :=
  RtoC (if (i <? n)%nat then Re (x i) else Im (x (off + (i - n))%nat)).

Definition of_split (A : mat) (r : svd_result) : sdmat :=
  let u := r_u r in let vT := r_vh r in
  SDMat A (Mat (mc u) (mr u) (fun i j => RtoC (Re (me u j i)))) (Mat (mc u) (mr u) (fun i j => RtoC (Im (me u j i))))
        (r_s r) (Mat (mc vT) (mr vT) (fun i j => me vT j i)).

Lemma split_decomposed_ok svd A (hz : bool) : let off := if hz then 1%nat else 0%nat in
  is_real_svd (stacked A off) (svd (stacked A off)) ->
  split_decomposed A (split_complex svd A hz) = Ok (of_split A (split_with (mr A) off (drop_zeros (svd (stacked A off))))).
Proof.
  intros off ((Hu & Hk & Hv & Hl & _) & _). unfold split_decomposed.
  change (split_complex svd A hz) with (split_with (mr A) off (svd (stacked A off))).
  unfold check_svd_result. unfold split_with at 1 2 3 4 5 6. cbn [r_u r_s r_vh mr mc].
  rewrite Hv, Hl. cbn [stacked mc]. rewrite !Nat.eqb_refl. cbn [negb orb bind].
  now rewrite drop_split.
Qed.

Lemma real_RtoC z : Im z = 0 -> z = RtoC (Re z).
Proof. intros H. apply C_eq; [reflexivity|exact H]. Qed.
Lemma Cconj_real z : Im z = 0 -> Cconj z = z.
Proof. intros H. apply C_eq; unfold Cconj, Re, Im in *; cbn; [reflexivity|]. rewrite H. ring. Qed.

Lemma sfit_fun_stack A off r x l : is_core (stacked A off) r -> 
  (forall i k, (i < mr A + (mr A - off))%nat -> (k < length (r_s r))%nat -> Im (me (r_u r) i k) = 0) ->
  (forall k l, (k < length (r_s r))%nat -> (l < mc A)%nat -> Im (me (r_vh r) k l) = 0) ->
  (l < mc A)%nat ->
  sfit_fun (of_split A (split_with (mr A) off r)) x l = fit_fun (of_core (stacked A off) r) (stack_data (mr A) off x) l /\
  Im (fit_fun (of_core (stacked A off) r) (stack_data (mr A) off x) l) = 0.
Proof.
  intros (Hu & Hk & Hv & Hl & _) Ru Rv Hll.
  unfold sfit_fun, fit_fun, of_split, of_core, split_with, adjoint, apply_mat at 1 3 4.
  cbn [sd_v sd_urT sd_uiT sd_s d_v d_uH d_s r_u r_s r_vh mr mc me]. rewrite Hv.
  assert (E : forall k, (k < length (r_s r))%nat ->
     Cplus (csumn (mr A) (fun i => Cmult (RtoC (Re (Re (me (r_u r) i k), if (i <? off)%nat then 0 else Re (me (r_u r) (mr A + (i - off))%nat k)))) (RtoC (Re (x i)))))
           (csumn (mr A) (fun i => Cmult (RtoC (Im (Re (me (r_u r) i k), if (i <? off)%nat then 0 else Re (me (r_u r) (mr A + (i - off))%nat k)))) (RtoC (Im (x i)))))
     = csumn (mr (r_u r)) (fun i => Cmult (Cconj (me (r_u r) i k)) (stack_data (mr A) off x i)) /\
     Im (csumn (mr (r_u r)) (fun i => Cmult (Cconj (me (r_u r) i k)) (stack_data (mr A) off x i))) = 0).
  { intros k Hkk. rewrite Hu. cbn [stacked mr]. split.
    - rewrite csumn_app. f_equal.
      + apply csumn_ext. intros i Hi. rewrite Cconj_real, (real_RtoC (me (r_u r) i k)) by (apply Ru; lia).
        unfold stack_data. destruct (Nat.ltb_spec i (mr A)); [reflexivity|lia].
      + rewrite <- csumn_off. apply csumn_ext. intros i Hi. destruct (Nat.ltb_spec i off) as [H|H].
        * unfold Im at 1; cbn [snd]. ring.
        * rewrite Cconj_real, (real_RtoC (me (r_u r) (mr A + (i - off)) k)) by (apply Ru; lia).
          unfold stack_data. destruct (Nat.ltb_spec (mr A + (i - off)) (mr A)); [lia|].
          replace (off + (mr A + (i - off) - mr A))%nat with i by lia. reflexivity.
    - rewrite Im_csumn. apply sumn_zero. intros i Hi. rewrite Cconj_real by (apply Ru; lia).
      rewrite (real_RtoC (me (r_u r) i k)) by (apply Ru; lia). unfold stack_data, Cmult, RtoC, Im; cbn. ring. }
  split.
  - apply csumn_ext. intros k Hkk. rewrite (Cconj_real (me (r_vh r) k l)) by auto. unfold apply_mat; cbn [mc mr me].
    f_equal. f_equal. apply E. assumption.
  - unfold apply_mat at 1; cbn [mc mr me]. rewrite Im_csumn. apply sumn_zero. intros k Hkk.
    destruct (E k Hkk) as [_ E2].
    rewrite (Cconj_real (me (r_vh r) k l)) by auto. rewrite (real_RtoC (me (r_vh r) k l)) by auto.
    unfold apply_mat; cbn [mc mr me]. rewrite (real_RtoC (csumn (mr (r_u r)) _) E2).
    unfold Cdiv, Cinv, Cmult, RtoC, Im; cbn. unfold Rdiv. ring.
Qed.

(** Residuals of real vectors. *)
Lemma apply_stacked A off h i : real_vec (mc A) h -> (i < mr (stacked A off))%nat ->
  apply_mat (stacked A off) h i = stack_data (mr A) off (apply_mat A h) i.
Proof.
  intros Hh Hi. unfold apply_mat at 1, stack_data. cbn [stacked mc me].
  destruct (Nat.ltb_spec i (mr A)); unfold apply_mat; [rewrite Re_csumn|rewrite Im_csumn]; apply C_eq; cbn [RtoC Re Im fst snd];
    rewrite ?Re_csumn, ?Im_csumn; try (apply sumn_zero; intros l Hl; rewrite (real_RtoC (h l)) by auto; unfold Cmult, RtoC, Im; cbn; ring);
    apply sumn_ext; intros l Hl; rewrite (real_RtoC (h l)) by auto; unfold Cmult, RtoC, Re, Im; cbn; ring.
Qed.

Lemma sumn_first off n F : (off <= n)%nat -> sumn n F = sumn off F + sumn (n - off) (fun i => F (off + i)%nat).
Proof. intros. replace n with (off + (n - off))%nat at 1 by lia. apply sumn_app. Qed.

Lemma residual_stacked A off h x : real_vec (mc A) h -> (off <= mr A)%nat ->
  (forall i l, (i < off)%nat -> (l < mc A)%nat -> Im (me A i l) = 0) ->
  residual2 A h x = residual2 (stacked A off) h (stack_data (mr A) off x) + sumn off (fun i => Im (x i) ^ 2).
Proof.
  intros Hh Ho H0. unfold residual2, norm2. cbn [stacked mr].
  rewrite sumn_app.
  rewrite (sumn_ext (mr A) (fun i => Cmod (Cminus (apply_mat (stacked A off) h i) (stack_data (mr A) off x i)) ^ 2)
             (fun i => Re (Cminus (apply_mat A h i) (x i)) ^ 2)).
  2: { intros i Hi. rewrite apply_stacked by (auto; cbn [stacked mr]; lia). unfold stack_data.
       destruct (Nat.ltb_spec i (mr A)); [|lia]. rewrite Cmod2_ReIm. unfold Cminus, Copp, Cplus, RtoC, Re, Im; cbn. ring. }
  rewrite (sumn_ext (mr A - off) _ (fun i => Im (Cminus (apply_mat A h (off + i)%nat) (x (off + i)%nat)) ^ 2)).
  2: { intros i Hi. rewrite apply_stacked by (auto; cbn [stacked mr]; lia). unfold stack_data.
       destruct (Nat.ltb_spec (mr A + i) (mr A)); [lia|]. replace (off + (mr A + i - mr A))%nat with (off + i)%nat by lia.
       rewrite Cmod2_ReIm. unfold Cminus, Copp, Cplus, RtoC, Re, Im; cbn. ring. }
  rewrite (sumn_ext (mr A) _ (fun i => Re (Cminus (apply_mat A h i) (x i)) ^ 2 + Im (Cminus (apply_mat A h i) (x i)) ^ 2))
    by (intros; apply Cmod2_ReIm).
  rewrite sumn_plus, (sumn_first off (mr A) (fun i => Im _ ^ 2)) by assumption.
  rewrite (sumn_ext off _ (fun i => Im (x i) ^ 2)); [ring|].
  intros i Hi. replace (Im (Cminus (apply_mat A h i) (x i))) with (- Im (x i)); [ring|].
  assert (Z : Im (apply_mat A h i) = 0).
  { unfold apply_mat. rewrite Im_csumn. apply sumn_zero. intros l Hl. rewrite (real_RtoC (h l)), (real_RtoC (me A i l)) by auto.
    unfold Cmult, RtoC, Im; cbn; ring. }
  unfold Cminus, Copp, Cplus, Im in *; cbn in *. rewrite Z. ring.
Qed.

Lemma split_lsq A off r x : (off <= mr A)%nat ->
  (forall i l, (i < off)%nat -> (l < mc A)%nat -> Im (me A i l) = 0) ->
  is_real_svd (stacked A off) r ->
  real_least_squares A x (sfit_fun (of_split A (split_with (mr A) off (drop_zeros r))) x).
Proof.
  intros Ho H0 Hr. destruct (drop_zeros_real _ _ Hr) as (Hc & Ru & Rv). cbn [stacked mr mc] in Ru, Rv.
  set (y := sfit_fun _ x). set (y' := fit_fun (of_core (stacked A off) (drop_zeros r)) (stack_data (mr A) off x)).
  assert (E : forall l, (l < mc A)%nat -> y l = y' l /\ Im (y' l) = 0) by (intros; now apply sfit_fun_stack).
  assert (Ry : real_vec (mc A) y) by (intros l Hl; destruct (E l Hl) as [-> Z]; exact Z).
  split; [exact Ry|]. intros h Hh.
  pose proof (core_lsq _ _ (stack_data (mr A) off x) Hc h) as L. fold y' in L. cbn [stacked mc] in L.
  rewrite (residual_stacked A off y x), (residual_stacked A off h x) by assumption.
  rewrite (residual2_ext (stacked A off) _ y y') by (intros; now apply E).
  rewrite (norm2_ext (mc A) y y') by (intros; now apply E).
  destruct L as [L1 L2]. split; [lra|]. intros E1. destruct L2 as [L3 L4]; [lra|].
  split; [exact L3|]. intros E2 l Hl. destruct (E l Hl) as [-> _]. auto.
Qed.

Lemma real_lsq_recovers A g x y : real_least_squares A x y -> full_real_rank A -> real_vec (mc A) g ->
  (forall i, (i < mr A)%nat -> x i = apply_mat A g i) -> forall l, (l < mc A)%nat -> y l = g l.
Proof.
  intros [Ry Hy] Hr Rg Hx l Hl. destruct (Hy g Rg) as [H _].
  assert (Z : residual2 A g x = 0).
  { unfold residual2. apply sumn_zero. intros i Hi. rewrite Hx by assumption.
    replace (Cminus _ _) with (RtoC 0) by ring. rewrite Cmod_0. ring. }
  assert (Zy : residual2 A y x = 0).
  { pose proof (norm2_nonneg (mr A) (fun i => Cminus (apply_mat A y i) (x i))). unfold residual2 in *. lra. }
  apply Ceq_minus. apply (Hr (fun l => Cminus (y l) (g l))); [| |assumption].
  - intros j Hj. unfold real_vec in *. specialize (Ry j Hj). specialize (Rg j Hj).
    unfold Cminus, Cplus, Copp, Im in *; cbn. rewrite Ry, Rg. ring.
  - intros i Hi. pose proof (norm2_zero _ _ Zy i Hi) as E. cbv beta in E. rewrite Hx in E by assumption.
    unfold apply_mat in *. rewrite (csumn_ext _ _ (fun l => Cminus (Cmult (me A i l) (y l)) (Cmult (me A i l) (g l)))) by (intros; ring).
    now rewrite csumn_minus.
Qed.
