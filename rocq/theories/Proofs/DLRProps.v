(** Lemmas about transfers between the DLR and the IR basis. *)
From Coq Require Import String ZArith Arith Bool Reals Lia Lra.
From Coquelicot Require Import Coquelicot.
From Coq Require Import List Sorted Permutation.
From Verif.Model Require Import Base Util Num Poly FT SVE Basis Kernel NDArray Sampling DLR.
From Verif.Spec Require Import SUtil SGauss SPoly SFT SBasis SKernel SSampling SDLR.
From Verif.Proofs Require Import BaseFacts SumFacts IntFacts UtilFacts GaussExact PPolyFacts FTFacts FTModel FTCall BasisFacts BasisInit BasisOps BasisPhys
  AugmentFacts AugmentProps NDFacts LstsqFacts SamplingFacts SplitFacts SamplingProps RecoverFacts KernelFacts KernelProps PointwiseFacts DLRFacts.
Import ListNotations.
Open Scope R_scope.
Notation length := List.length.

Lemma csumn_Cmod n f : Cmod (csumn n f) <= sumn n (fun i => Cmod (f i)).
Proof.
  induction n as [|n IH]; [cbn; rewrite Cmod_0; lra|]. rewrite csumn_S, sumn_S. eapply Rle_trans; [apply Cmod_triangle|]. lra.
Qed.
Lemma csumn_R n f : csumn n (fun i => RtoC (f i)) = RtoC (sumn n f).
Proof. induction n as [|n IH]; [reflexivity|]. rewrite csumn_S, sumn_S, IH. unfold RtoC, Cplus; cbn. f_equal; ring. Qed.

Section DLR.
Variables (compute : kern -> option R -> res sve_result) (svd : mat -> svd_result).

Lemma bv_fresh b : built compute b -> geom_ok (vgeom (bv b)) /\ (0 < glen (vgeom (bv b)))%nat /\ length (vcols (bv b)) = bsize b.
Proof.
  intros Hb. rewrite (bv_eq compute b Hb). cbn [vgeom vcols]. destruct (ok_r compute b Hb) as (_ & (Hg & Ho & Hl) & _ & _ & _ & _ & _ & Lv & _).
  pose proof (wmax_pos compute b Hb). pose proof (size_le compute b Hb).
  split; [apply scaled_ok; auto|]. split; [cbn [scaled_geom glen]; lia|]. rewrite firstn_length. lia.
Qed.
Lemma bs_len b : built compute b -> length (bs b) = bsize b.
Proof. intros Hb. rewrite (bs_eq compute b Hb), map_length, firstn_length. pose proof (size_le compute b Hb). lia. Qed.


Lemma dlr_inv b poles d : built compute b -> dlr_init svd b true poles = Ok d ->
  exists m F, dl_basis d = b /\ dl_poles d = poles /\ dl_u d = TauPoles (bstat b) (bbeta b) poles m /\ largest poles m /\
    dl_uhat d = MatsPoles (bstat b) (bbeta b) poles /\ Forall (inside_w b) poles /\
    dl_matrix d = of_core F (drop_zeros (svd F)) /\ mr F = bsize b /\ mc F = length poles /\
    forall l p W, (l < bsize b)%nat -> (p < length poles)%nat -> represents (bv b) l W ->
      me F l p = RtoC (- nth l (bs b) 0 * W (nth p poles 0)).
Proof.
  intros Hb. unfold dlr_init. cbn [negb].
  destruct (taupoles_init _ _ _) as [u|] eqn:Eu; [|discriminate]. cbn [bind].
  apply taupoles_init_ok in Eu. destruct Eu as (m & -> & Hm).
  destruct (bv_fresh b Hb) as (Hg & Hl & Hs). destruct (bv_range compute b Hb) as [R1 R2].
  destruct (vcall_arr (bv b) poles) as [V|] eqn:EV; [|discriminate]. cbn [bind].
  apply (vcall_arr_ok _ _ _ Hg Hl) in EV. rewrite R1, R2 in EV. destruct EV as [FV ->].
  set (F := dlr_matrix b (length poles) (map (fun c => map (cval (vgeom (bv b)) c) poles) (vcols (bv b)))).
  unfold decomposed. destruct (check_svd_result _ _ _ _); [|discriminate]. cbn [bind]. intros [= <-]. exists m, F.
  cbn [dl_basis dl_poles dl_u dl_uhat dl_matrix]. repeat match goal with |- _ /\ _ => split end; auto.
  intros l p W Hl' Hp HW. unfold F, dlr_matrix. cbn [me]. f_equal. f_equal.
  { apply represents_cval in HW; auto; [|lia]. destruct HW as (c & Ec & HW).
    rewrite (nth_error_nth_d _ l (map (cval (vgeom (bv b)) c) poles) []) by (now rewrite (map_nth_error _ _ _ Ec)).
    rewrite (nth_error_nth_d _ p (cval (vgeom (bv b)) c (nth p poles 0)) 0).
    + apply HW. rewrite R1, R2. rewrite Forall_forall in FV. apply FV. now apply nth_In.
    + now rewrite (map_nth_error _ _ _ (nth_error_nth' poles 0 Hp)). }
Qed.

(** When the constructor succeeds. *)
Lemma dlr_accepts b lg poles : built compute b -> (forall A, svd_shapes A (svd A)) ->
  (is_ok (dlr_init svd b lg poles) <-> lg = true /\ poles <> [] /\ Forall (inside_w b) poles) /\
  (forall e, dlr_init svd b lg poles = Raise e -> e = ValueError).
Proof.
  intros Hb HS. destruct (bv_fresh b Hb) as (Hg & Hl & Hs). destruct (bv_range compute b Hb) as [R1 R2].
  unfold dlr_init. destruct lg; cbn [negb].
  2: { split; [split; [intros [z E]; discriminate|intros [E _]; discriminate]|congruence]. }
  unfold taupoles_init. destruct (rmax_list (map Rabs poles)) as [m|] eqn:Em; cbn [bind].
  2: { split; [split; [intros [z E]; discriminate|]|congruence]. intros (_ & Hne & _). destruct poles as [|w ws]; [congruence|].
       exfalso. clear - Em. cbn [map rmax_list] in Em. destruct (rmax_list (map Rabs ws)); discriminate. }
  assert (Hne : poles <> []) by (intros ->; discriminate).
  destruct (vcall_arr (bv b) poles) as [V|e] eqn:EV; cbn [bind].
  - assert (FV := proj1 (proj1 (vcall_arr_ok _ _ _ Hg Hl) EV)). rewrite R1, R2 in FV.
    unfold decomposed. set (F := dlr_matrix b (length poles) V).
    destruct (HS F) as (S1 & S2 & S3 & S4).
    assert (E : check_svd_result [mr (r_u (svd F)); mc (r_u (svd F))] [length (r_s (svd F))] [mr (r_vh (svd F)); mc (r_vh (svd F))] (Some (mr F, mc F)) = Ok (mr F, length (r_s (svd F)), mc F)).
    { unfold check_svd_result. rewrite S1, S2, S3, S4, !Nat.eqb_refl. reflexivity. }
    rewrite E. cbn [bind]. split; [|discriminate]. split; [auto|]. intros _. eexists. reflexivity.
  - split.
    + split; [intros [z E]; discriminate|]. intros (_ & _ & FV).
      assert (E : vcall_arr (bv b) poles = Ok (map (fun c => map (cval (vgeom (bv b)) c) poles) (vcols (bv b)))).
      { apply (vcall_arr_ok _ _ _ Hg Hl). rewrite R1, R2. split; [exact FV|reflexivity]. }
      congruence.
    + intros e' [= <-].
      destruct (Forall_dec (fun x => gxmin (vgeom (bv b)) <= x <= gxmax (vgeom (bv b)))
                  ltac:(intros x; destruct (Rle_dec (gxmin (vgeom (bv b))) x), (Rle_dec x (gxmax (vgeom (bv b)))); [left; split; assumption|right; tauto..]) poles) as [FV|FV].
      * rewrite (proj2 (vcall_arr_ok _ _ _ Hg Hl) (conj FV eq_refl)) in EV. discriminate.
      * rewrite vcall_arr_raises in EV by assumption. congruence.
Qed.

Lemma to_ir_bound b poles d : built compute b -> dlr_init svd b true poles = Ok d ->
  exists f, works_along_axis (to_IR d) (length poles) (bsize b) f /\
  forall U W, (forall l, (l < bsize b)%nat -> represents (bu b) l (U l) /\ represents (bv b) l (W l)) ->
  forall E t, 
  (forall w, In w poles -> Rabs (exp (- t * w) / (1 + exp (- bbeta b * w)) - sumn (bsize b) (fun l => nth l (bs b) 0 * U l t * W l w)) <= E) ->
  forall g, Cmod (Cminus (csumn (bsize b) (fun l => Cmult (RtoC (U l t)) (f g l)))
                         (csumn (length poles) (fun p => Cmult (RtoC (pole_fun (bbeta b) (nth p poles 0) t)) (g p)))) <=
            E * sumn (length poles) (fun p => Cmod (g p)).
Proof.
  intros Hb Hd. destruct (dlr_inv b poles d Hb Hd) as (m & F & _ & _ & _ & _ & _ & _ & EM & HF1 & HF2 & HF).
  exists (apply_mat F). split.
  { pose proof (d_matmul_works (dl_matrix d)) as K. unfold to_IR. rewrite EM in K |- *. cbn [of_core d_a] in K. rewrite HF1, HF2 in K. exact K. }
  intros U W HUW E t HE g. unfold apply_mat. rewrite HF2.
  set (K := fun w => exp (- t * w) / (1 + exp (- bbeta b * w)) - sumn (bsize b) (fun l => nth l (bs b) 0 * U l t * W l w)) in *.
  replace (Cminus _ _) with (csumn (length poles) (fun p => Cmult (RtoC (K (nth p poles 0))) (g p))).
  - eapply Rle_trans; [apply csumn_Cmod|]. rewrite <- sumn_scal. apply sumn_le. intros p Hp. rewrite Cmod_mult, Cmod_R.
    apply Rmult_le_compat_r; [apply Cmod_ge_0|]. apply HE. now apply nth_In.
  - rewrite (csumn_ext _ (fun l => Cmult (RtoC (U l t)) (csumn (length poles) (fun p => Cmult (me F l p) (g p))))
               (fun l => csumn (length poles) (fun p => Cmult (RtoC (- (nth l (bs b) 0 * U l t * W l (nth p poles 0)))) (g p)))).
    2: { intros l Hl. rewrite <- csumn_scal. apply csumn_ext. intros p Hp. rewrite (HF l p (W l)) by (auto; apply HUW; auto).
         rewrite Cmult_assoc. f_equal. rewrite <- RtoC_mult. f_equal. ring. }
    rewrite csumn_swap. rewrite <- csumn_minus. apply csumn_ext. intros p Hp.
    assert (S : csumn (bsize b) (fun l => Cmult (RtoC (- (nth l (bs b) 0 * U l t * W l (nth p poles 0)))) (g p)) =
                Cmult (RtoC (- sumn (bsize b) (fun l => nth l (bs b) 0 * U l t * W l (nth p poles 0)))) (g p)).
    { rewrite csumn_scal_r, csumn_R. do 2 f_equal. rewrite sumn_opp. reflexivity. }
    rewrite S. unfold K, pole_fun. unfold Cminus. rewrite <- !Copp_mult_distr_l || idtac.
    apply C_eq; unfold Cmult, Cplus, Copp, RtoC; cbn [Re Im fst snd]; ring.
Qed.

Lemma from_ir_recovers b poles d : built compute b -> dlr_init svd b true poles = Ok d ->
  let F := d_a (dl_matrix d) in is_svd F (svd F) -> 
  (exists f, (forall x, least_squares F x (f x)) /\ works_along_axis (from_IR d) (bsize b) (length poles) f) /\
  (full_rank F -> forall g k gl, to_IR d g k = Ok gl -> exists g', from_IR d gl k = Ok g' /\ same_outcome (Ok g') (Ok g)).
Proof.
  intros Hb Hd. destruct (dlr_inv b poles d Hb Hd) as (m & F & _ & _ & _ & _ & _ & _ & EM & HF1 & HF2 & HF).
  rewrite EM. cbn [of_core d_a]. intros HS.
  destruct (core_fit svd F HS) as (L1 & L2 & _). fold (of_core F (drop_zeros (svd F))) in *.
  assert (W2 : works_along_axis (from_IR d) (mr F) (mc F) (fit_fun (of_core F (drop_zeros (svd F))))).
  { unfold from_IR. rewrite EM. exact L2. }
  assert (W1 : works_along_axis (to_IR d) (mc F) (mr F) (apply_mat F)).
  { pose proof (d_matmul_works (dl_matrix d)) as K. unfold to_IR. rewrite EM in K |- *. exact K. }
  split.
  - exists (fit_fun (of_core F (drop_zeros (svd F)))). split; [exact L1|]. rewrite <- HF1, <- HF2. exact W2.
  - intros HR g k gl E.
    refine (works_recover (fun x k => match k with Some k => to_IR d x k | None => Raise ValueError end)
                          (fun x k => match k with Some k => from_IR d x k | None => Raise ValueError end)
                          _ _ _ _ (fun _ => True) W1 W2 _ g k gl E _); auto.
    intros g0 v _ Hv l Hl. eapply lsq_recovers; eauto.
Qed.
End DLR.

Lemma to_ir_exact compute svd b poles d : built compute b -> dlr_init svd b true poles = Ok d ->
  exists f, works_along_axis (to_IR d) (length poles) (bsize b) f /\
  forall U W, (forall l, (l < bsize b)%nat -> represents (bu b) l (U l) /\ represents (bv b) l (W l)) ->
  forall t,
  (forall w, In w poles -> exp (- t * w) / (1 + exp (- bbeta b * w)) = sumn (bsize b) (fun l => nth l (bs b) 0 * U l t * W l w)) ->
  forall g, csumn (bsize b) (fun l => Cmult (RtoC (U l t)) (f g l)) =
            csumn (length poles) (fun p => Cmult (RtoC (pole_fun (bbeta b) (nth p poles 0) t)) (g p)).
Proof.
  intros Hb Hd. destruct (to_ir_bound compute svd b poles d Hb Hd) as (f & Wk & H). exists f. split; [exact Wk|].
  intros U W HUW t HE g. apply Ceq_minus. apply Cmod_eq_0. apply Rle_antisym; [|apply Cmod_ge_0].
  eapply Rle_trans; [apply (H U W HUW 0 t)|rewrite Rmult_0_l; lra].
  intros w Hw. rewrite (HE w Hw). rewrite Rminus_eq_0, Rabs_R0. lra.
Qed.
