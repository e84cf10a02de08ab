(** Transfers between the DLR and the IR basis in rounded arithmetic. *)
From Coq Require Import String ZArith Arith Bool Reals Lia Lra Psatz FunctionalExtensionality.
From Flocq Require Import Core.
From Coquelicot Require Import Coquelicot.
From Coq Require Import List.
From Verif.Model Require Import Base Util Num Poly FT SVE Basis Kernel KernelIEEE PolyIEEE NDArray Sampling SamplingIEEE DLR DLRIEEE IEEE.
From Verif.Spec Require Import SPoly SGauss SKernel SKernelIEEE SSampling SSamplingIEEE SDLR SDLRIEEE.
From Verif.Proofs Require Import BaseFacts SumFacts FTFacts FTModel LstsqFacts IEEEFacts KernelFacts KernelRound KernelRoundCall PolyRound NDFacts SamplingFacts SamplingProps CVec FitRound NDRel SamplingRound
  SamplingRoundProps DLRFacts DLRProps DLRClaims DLRRound.
Import ListNotations.
Open Scope R_scope.
Notation length := List.length.

Lemma outside_rd rd f st beta poles u tau t : taupoles_init st beta poles = Ok u -> In t tau ->
  t = PInf \/ t = NInf \/ (exists r, t = Fin r /\ (r < 0 \/ beta < r)) ->
  taupoles_call_rd rd f u tau = Raise RuntimeError.
Proof.
  intros Hu I H. apply taupoles_init_ok in Hu. destruct Hu as (m & -> & Hm). unfold taupoles_call_rd. cbn [tp_beta].
  assert (E : existsb (fun t => xltb t (Fin 0)) tau || existsb (fun t => xltb (Fin beta) t) tau = true).
  { apply outside_iff. exists t. split; [exact I|]. destruct H as [->|[->|(r & -> & [L|L])]]; [right; reflexivity|left; reflexivity| |].
    - left. now apply xltb_fin.
    - right. now apply xltb_fin. }
  now rewrite E.
Qed.

Lemma frequency_nan_rd u eta rd th pi m p j M ns : rounding u eta rd -> matspoles_call_rd rd th pi m (map IZR ns) = Ok M ->
  nth_error (mp_poles m) p = Some 0 -> nth_error ns j = Some 0%Z -> entry_of M p j = Some None.
Proof.
  intros Hrd EM Hp Hj. pose proof (rd_0 u eta rd Hrd) as Z. unfold matspoles_call_rd in EM. injection EM as <-.
  unfold entry_of. rewrite (map_nth_error _ _ _ Hp). rewrite map_map. rewrite (map_nth_error _ _ _ Hj).
  f_equal. unfold pole_value_rd, freq_rd. rewrite Z, Rmult_0_l, Z, Rmult_0_l, Z. unfold smith, Rleb, Reqb. rewrite Ropp_0.
  destruct (Rle_dec (Rabs 0) (Rabs 0)) as [|N]; [|exfalso; apply N; lra]. destruct (Req_EM_T 0 0); [reflexivity|congruence].
Qed.

Lemma dlr_rd_inv old rd svd b lg poles d : dlr_init_rd old rd svd b lg poles = Ok d ->
  exists V, vcall_arr_rd old rd (bv b) poles = Ok V /\ poles <> [] /\ lg = true /\ let F := dlr_matrix_rd rd b (length poles) V in
  dl_matrix d = of_core F (drop_zeros (svd F)) /\ dl_poles d = poles /\ dl_basis d = b /\
  taupoles_init (bstat b) (bbeta b) poles = Ok (dl_u d) /\ dl_uhat d = MatsPoles (bstat b) (bbeta b) poles.
Proof.
  unfold dlr_init_rd. destruct lg; [|discriminate]. cbn [negb]. destruct (taupoles_init (bstat b) (bbeta b) poles) as [tp|] eqn:ET; [|discriminate]. cbn [bind].
  destruct (vcall_arr_rd old rd (bv b) poles) as [V|] eqn:EV; [|discriminate]. cbn [bind]. unfold decomposed. destruct (check_svd_result _ _ _ _); [|discriminate]. cbn [bind].
  intros [= <-]. exists V. split; [reflexivity|]. split; [|repeat split]. intros ->. discriminate.
Qed.

Lemma dlr_refuses old rd svd b lg poles : lg = false \/ poles = [] -> dlr_init_rd old rd svd b lg poles = Raise ValueError.
Proof. intros [->| ->]; [reflexivity|]. destruct lg; reflexivity. Qed.

Lemma matrix_entry u eta rd old svd b lg poles d : rounding u eta rd -> 0 <= u -> dlr_init_rd old rd svd b lg poles = Ok d ->
  let F := d_a (dl_matrix d) in mr F = length (bs b) /\ mc F = length poles /\
  forall l p w y s v es ev, (l < length (vcols (bv b)))%nat -> nth_error poles p = Some w -> value_rd old rd (bv b) (Z.of_nat l) w = Ok y ->
  Rabs (nth l (bs b) 0 - s) <= es -> Rabs (y - v) <= ev ->
  Cmod (Cminus (me F l p) (RtoC (- (s * v)))) <= u * Rabs (s * v) + (1 + u) * (es * Rabs v + (Rabs s + es) * ev) + eta.
Proof.
  intros Hrd Hu Hd F. destruct (dlr_rd_inv _ _ _ _ _ _ _ Hd) as (V & HV & _ & _ & EM & _). unfold F. rewrite EM. cbn [of_core d_a dlr_matrix_rd mr mc me].
  split; [reflexivity|]. split; [reflexivity|]. intros l p w y s v es ev Hl Hp Hy Hs Hv.
  destruct (arr_entry _ _ _ _ _ HV) as [LV AV]. destruct (nth_error V l) as [row|] eqn:ER; [|apply nth_error_None in ER; lia].
  destruct (AV l p row w ER Hp) as (v' & E1 & E2). assert (v' = y) as -> by congruence.
  rewrite (nth_error_nth _ _ _ ER), (nth_error_nth _ _ _ E1). set (sl := nth l (bs b) 0) in *.
  rewrite <- RtoC_minus, Cmod_R. destruct Hrd as (R1 & _). pose proof (R1 (- sl * y)) as Q.
  assert (D : Rabs (- sl * y - - (s * v)) <= es * Rabs v + (Rabs s + es) * ev).
  { replace (- sl * y - - (s * v)) with (- ((sl - s) * v + sl * (y - v))) by ring. rewrite Rabs_Ropp. eapply Rle_trans; [apply Rabs_triang|]. rewrite !Rabs_mult.
    assert (Rabs sl <= Rabs s + es). { replace sl with (s + (sl - s)) by ring. eapply Rle_trans; [apply Rabs_triang|]. lra. }
    apply Rplus_le_compat; [apply Rmult_le_compat_r; [apply Rabs_pos|lra]|apply Rmult_le_compat; try apply Rabs_pos; lra]. }
  assert (N : Rabs (- sl * y) <= Rabs (s * v) + (es * Rabs v + (Rabs s + es) * ev)).
  { replace (- sl * y) with (- (s * v) + (- sl * y - - (s * v))) by ring. eapply Rle_trans; [apply Rabs_triang|]. rewrite Rabs_Ropp. lra. }
  set (D0 := es * Rabs v + (Rabs s + es) * ev) in *. clearbody D0.
  replace (rd (- sl * y) - - (s * v)) with ((rd (- sl * y) - (- sl * y)) + (- sl * y - - (s * v))) by ring. eapply Rle_trans; [apply Rabs_triang|].
  assert (u * Rabs (- sl * y) <= u * (Rabs (s * v) + D0)) by (apply Rmult_le_compat_l; lra). lra.
Qed.

(** * to_IR *)
Lemma to_ir_near ar N gam th old rd svd b lg poles d : dot_near N gam th (ar_dot ar) -> dlr_init_rd old rd svd b lg poles = Ok d -> (length poles <= N)%nat ->
  slices_along (to_IR_rd ar d) (length poles) (length (bs b)) (values_near (d_a (dl_matrix d)) gam th).
Proof.
  intros HD Hd HN. destruct (dlr_rd_inv _ _ _ _ _ _ _ Hd) as (V & HV & _ & _ & EM & _). unfold to_IR_rd, d_matmul_rd. rewrite EM. cbn [of_core d_a].
  exact (proj1 (matmul_near ar N gam th HD (dlr_matrix_rd rd b (length poles) V) HN)).
Qed.

Lemma values_time b poles F gam th g x : mr F = length (bs b) -> mc F = length poles -> values_near F gam th g x -> time_close b poles F gam th g x.
Proof.
  intros E1 E2 HV s U W E eps t HE HF. unfold values_near in HV. rewrite E1, E2 in HV. set (n := length (bs b)) in *. set (m := length poles) in *.
  set (y := fun l => csumn m (fun p => Cmult (RtoC (- (s l * W l (nth p poles 0)))) (g p))).
  set (T := csumn m (fun p => Cmult (RtoC (pole_fun (bbeta b) (nth p poles 0) t)) (g p))).
  assert (A : Cmod (Cminus (csumn n (fun l => Cmult (RtoC (U l)) (y l))) T) <= E * sumn m (fun p => Cmod (g p))).
  { set (K := fun w => exp (- t * w) / (1 + exp (- bbeta b * w)) - sumn n (fun l => s l * U l * W l w)) in *.
    replace (Cminus _ _) with (csumn m (fun p => Cmult (RtoC (K (nth p poles 0))) (g p))).
    - eapply Rle_trans; [apply csumn_Cmod|]. rewrite <- sumn_scal. apply sumn_le. intros p Hp. rewrite Cmod_mult, Cmod_R.
      apply Rmult_le_compat_r; [apply Cmod_ge_0|]. apply HE. now apply nth_In.
    - unfold y, T. rewrite (csumn_ext _ (fun l => Cmult (RtoC (U l)) (csumn m (fun p => Cmult (RtoC (- (s l * W l (nth p poles 0)))) (g p))))
               (fun l => csumn m (fun p => Cmult (RtoC (- (s l * U l * W l (nth p poles 0)))) (g p)))).
      2: { intros l Hl. rewrite <- csumn_scal. apply csumn_ext. intros p Hp. rewrite Cmult_assoc. f_equal. rewrite <- RtoC_mult. f_equal. ring. }
      rewrite csumn_swap. rewrite <- csumn_minus. apply csumn_ext. intros p Hp.
      assert (S : csumn n (fun l => Cmult (RtoC (- (s l * U l * W l (nth p poles 0)))) (g p)) =
                  Cmult (RtoC (- sumn n (fun l => s l * U l * W l (nth p poles 0)))) (g p)).
      { rewrite csumn_scal_r, csumn_R. do 2 f_equal. rewrite sumn_opp. reflexivity. }
      rewrite S. unfold K, pole_fun. apply C_eq; unfold Cmult, Cminus, Cplus, Copp, RtoC; cbn [Re Im fst snd]; ring. }
  assert (B : Cmod (Cminus (csumn n (fun l => Cmult (RtoC (U l)) (x l))) (csumn n (fun l => Cmult (RtoC (U l)) (y l)))) <=
    sumn n (fun l => Rabs (U l) * (eps * sumn m (fun p => Cmod (g p)) + gam * sumn m (fun p => Cmod (me F l p) * Cmod (g p)) + th))).
  { rewrite <- csumn_minus. eapply Rle_trans; [apply csumn_Cmod|]. apply sumn_le. intros l Hl.
    replace (Cminus (Cmult (RtoC (U l)) (x l)) (Cmult (RtoC (U l)) (y l))) with (Cmult (RtoC (U l)) (Cminus (x l) (y l))) by ring.
    rewrite Cmod_mult, Cmod_R. apply Rmult_le_compat_l; [apply Rabs_pos|].
    set (z := csumn m (fun p => Cmult (me F l p) (g p))). replace (Cminus (x l) (y l)) with (Cplus (Cminus (x l) z) (Cminus z (y l))) by ring.
    eapply Rle_trans; [apply Cmod_triangle|]. specialize (HV l Hl). fold z in HV.
    assert (Q : Cmod (Cminus z (y l)) <= eps * sumn m (fun p => Cmod (g p))).
    { unfold z, y. rewrite <- csumn_minus. eapply Rle_trans; [apply csumn_Cmod|]. rewrite <- sumn_scal. apply sumn_le. intros p Hp.
      replace (Cminus (Cmult (me F l p) (g p)) (Cmult (RtoC (- (s l * W l (nth p poles 0)))) (g p))) with (Cmult (Cminus (me F l p) (RtoC (- (s l * W l (nth p poles 0))))) (g p)) by ring.
      rewrite Cmod_mult. apply Rmult_le_compat_r; [apply Cmod_ge_0|]. apply HF; assumption. }
    lra. }
  set (X := csumn n (fun l => Cmult (RtoC (U l)) (x l))) in *. set (Y := csumn n (fun l => Cmult (RtoC (U l)) (y l))) in *.
  replace (Cminus X T) with (Cplus (Cminus X Y) (Cminus Y T)) by ring. eapply Rle_trans; [apply Cmod_triangle|]. lra.
Qed.

Lemma to_ir_time ar N gam th old rd svd b lg poles d : dot_near N gam th (ar_dot ar) -> dlr_init_rd old rd svd b lg poles = Ok d -> (length poles <= N)%nat ->
  slices_along (to_IR_rd ar d) (length poles) (length (bs b)) (time_close b poles (d_a (dl_matrix d)) gam th).
Proof.
  intros HD Hd HN. eapply slices_along_weaken; [exact (to_ir_near _ _ _ _ _ _ _ _ _ _ _ HD Hd HN)|]. intros g h. apply values_time.
  - destruct (dlr_rd_inv _ _ _ _ _ _ _ Hd) as (V & HV & _ & _ & EM & _). rewrite EM. reflexivity.
  - destruct (dlr_rd_inv _ _ _ _ _ _ _ Hd) as (V & HV & _ & _ & EM & _). rewrite EM. reflexivity.
Qed.

(** * from_IR *)
Lemma from_ir_near ar N gam th u eta lo hi old rd svd b lg poles d a c e : arith_near N gam th u eta lo hi ar -> dlr_init_rd old rd svd b lg poles = Ok d ->
  let F := d_a (dl_matrix d) in
  decomposes F (svd F) a c e lo hi -> small_fit (length poles) gam u a c -> (length (bs b) <= N)%nat -> (length poles <= N)%nat ->
  slices_along (from_IR_rd ar d) (length (bs b)) (length poles)
    (fun x y => fits (fun _ => True) F gam th u eta a c e lo hi x y /\ fits_best least_squares F gam th u eta a c e lo hi x y).
Proof.
  intros HA Hd. destruct (dlr_rd_inv _ _ _ _ _ _ _ Hd) as (V & HV & _ & _ & EM & _). unfold from_IR_rd. rewrite EM. cbn [of_core d_a].
  set (F := dlr_matrix_rd rd b (length poles) V). intros HD HS Kr Kc. rewrite (drop_id F (svd F) a c e lo hi HD).
  exact (proj1 (dense_slices ar N gam th u eta F (svd F) a c e lo hi HA HD HS Kr Kc)).
Qed.

Lemma ir_round_trip ar N gam th u eta lo hi old rd svd b lg poles d a c e : arith_near N gam th u eta lo hi ar -> dlr_init_rd old rd svd b lg poles = Ok d ->
  let F := d_a (dl_matrix d) in
  decomposes F (svd F) a c e lo hi -> small_fit (length poles) gam u a c -> (length (bs b) <= N)%nat -> (length poles <= N)%nat ->
  slices_along (fun g k => do x <- to_IR_rd ar d g k; from_IR_rd ar d x k) (length poles) (length poles)
    (comes_back (fun _ => True) F gam th u eta a c e lo hi).
Proof.
  intros HA Hd F HD HS Kr Kc. pose proof (from_ir_near _ _ _ _ _ _ _ _ _ _ _ _ _ _ _ _ _ _ HA Hd HD HS Kr Kc) as F1. fold F in F1.
  pose proof HA as ((Pg & Pt & _) & _ & _ & _ & Pu & Pe). pose proof HS as (Sa & Sc & _).
  pose proof (to_ir_near ar N gam th _ _ _ _ _ _ _ (proj1 HA) Hd Kc) as V1. fold F in V1.
  assert (Er : mr F = length (bs b) /\ mc F = length poles /\ poles <> []).
  { destruct (dlr_rd_inv _ _ _ _ _ _ _ Hd) as (V & HV & NE & _ & EM & _). unfold F. rewrite EM. repeat split; auto. }
  destruct Er as (Er & Ec & NE). assert (P : (0 < mc F)%nat) by (rewrite Ec; destruct poles; [congruence|cbn; lia]).
  assert (B : forall g x y, values_near F gam th g x -> fits (fun _ => True) F gam th u eta a c e lo hi x y /\ fits_best least_squares F gam th u eta a c e lo hi x y -> comes_back (fun _ => True) F gam th u eta a c e lo hi g y).
  { rewrite <- Ec in HS. intros g x y HV [HF _]. eapply back_near; try eassumption; [exact (lo_pos _ _ _ _ _ _ _ HD)|exact (d_pos _ _ _ _ _ _ _ HD)|exact (A_frob _ _ _ _ _ _ _ HD Sa Sc)|].
    intros _. exact (A_app _ _ _ _ _ _ _ HD Sa Sc g). }
  pose proof (rows_pos _ _ _ _ _ _ _ HD Sa P) as Pm. rewrite Er in Pm.
  exact (along_comp _ _ _ _ _ _ _ _ (values_respects F gam th) Pm B V1 F1).
Qed.

(** * Exact arithmetic *)
Lemma smith_exact t a b : smith (fun x => x) t a b = if Ceq_dec (a, b) (RtoC 0) then None else Some (Cdiv (RtoC t) (a, b)).
Proof.
  unfold smith, Rleb, Reqb. destruct (Rle_dec (Rabs b) (Rabs a)) as [L|L].
  - destruct (Req_EM_T a 0) as [->|Na].
    + rewrite Rabs_R0 in L. assert (b = 0) as -> by (destruct (Req_dec b 0) as [Z|Z]; [exact Z|apply Rabs_pos_lt in Z; lra]).
      destruct (Ceq_dec _ _) as [|N]; [reflexivity|exfalso; apply N; reflexivity].
    + destruct (Ceq_dec _ _) as [E|_]; [exfalso; apply Na; exact (f_equal fst E)|]. f_equal. assert (0 < a * a + b * b) by nra.
      apply C_eq; unfold Cdiv, Cinv, Cmult, RtoC; cbn [Re Im fst snd]; field; repeat split; nra.
  - assert (Nb : b <> 0). { intros ->. rewrite Rabs_R0 in L. pose proof (Rabs_pos a). lra. }
    destruct (Ceq_dec _ _) as [E|_]; [exfalso; apply Nb; exact (f_equal snd E)|]. f_equal. assert (0 < a * a + b * b) by nra.
    apply C_eq; unfold Cdiv, Cinv, Cmult, RtoC; cbn [Re Im fst snd]; field; repeat split; nra.
Qed.

Lemma dlr_exact old f svd :
  (forall u tau, taupoles_call_rd (fun x => x) f u tau = taupoles_call f u tau) /\
  (forall u n, matspoles_call_rd (fun x => x) tanh PI u n = matspoles_call u n) /\
  (forall b lg poles, dlr_init_rd old (fun x => x) svd b lg poles = dlr_init svd b lg poles) /\
  (forall d x k, from_IR_rd exact_arith d x k = from_IR d x k) /\ (forall d x k, to_IR_rd exact_arith d x k = to_IR d x k).
Proof.
  split; [|split; [|split; [|split]]].
  - intros u tau. unfold taupoles_call_rd, taupoles_call. rewrite call_rd_exact. reflexivity.
  - intros u n. unfold matspoles_call_rd, matspoles_call. f_equal. apply map_ext. intros w. apply map_ext. intros k.
    unfold pole_value_rd, pole_value, freq_rd. rewrite smith_exact. set (D := Cminus (0, k * PI / mp_beta u) (RtoC w)).
    assert (E : (- w, k * PI * (1 / mp_beta u)) = D) by (unfold D, Cminus, Cplus, Copp, RtoC; cbn; f_equal; unfold Rdiv; ring). rewrite E.
    destruct (Ceq_dec D (RtoC 0)); [reflexivity|]. destruct (String.eqb _ _); reflexivity.
  - intros b lg poles. unfold dlr_init_rd, dlr_init. destruct (negb lg); [reflexivity|]. destruct (taupoles_init _ _ _); [|reflexivity]. cbn [bind].
    rewrite (proj1 (proj2 (proj2 (proj2 (PolyRound.exact_arithmetic old))))). reflexivity.
  - intros d x k. unfold from_IR_rd, from_IR, d_fit_rd, d_lstsq_rd. rewrite mm_exact_fun. reflexivity.
  - intros d x k. unfold to_IR_rd, to_IR, d_matmul_rd. rewrite mm_exact_fun. reflexivity.
Qed.

(** * Doubles *)
Lemma double_twice x : is_double x -> is_double (2 * x).
Proof.
  intros H. unfold is_double, fexp64 in H. apply FLT_format_generic in H; [|exact prec53]. destruct H as [[m e] -> Hm He]. cbn [Fnum Fexp] in *.
  unfold is_double, fexp64. apply generic_format_FLT. exists (Float radix2 m (e + 1)); cbn [Fnum Fexp]; [|exact Hm|lia].
  unfold F2R. cbn [Fnum Fexp]. rewrite bpow_plus. change (bpow radix2 1) with 2. ring.
Qed.
Lemma double_small m : (Z.abs m < 2 ^ 53)%Z -> is_double (IZR m).
Proof.
  intros H. unfold is_double, fexp64. apply generic_format_FLT. exists (Float radix2 m 0); cbn [Fnum Fexp]; [|exact H|lia].
  unfold F2R. cbn. ring.
Qed.
Lemma keeps_double beta : is_double beta -> keeps_interval rnd64 beta.
Proof.
  intros H. split; [exact rnd64_le|]. split; [apply rnd64_id, (double_small 1); lia|]. split; [apply rnd64_id, (double_small (-1)); lia|].
  split; [apply rnd64_id, (double_small 2); lia|]. apply rnd64_id, double_twice, H.
Qed.
Lemma eta_small : 10 ^ 300 * eta64 <= / 2 ^ 53.
Proof. destruct (small_double 0 ltac:(lra)) as (_ & _ & E0 & E1). rewrite Rmult_comm. exact E1. Qed.
