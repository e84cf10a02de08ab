(** Lemmas about the discrete Lehmann representation. *)
From Coq Require Import String ZArith Arith Bool Reals Lia Lra.
From Coquelicot Require Import Coquelicot.
From Coq Require Import List Sorted Permutation.
From Verif.Model Require Import Base Util Num Poly FT SVE Basis Kernel NDArray Sampling DLR.
From Verif.Spec Require Import SUtil SGauss SPoly SFT SBasis SKernel SSampling SDLR.
From Verif.Proofs Require Import BaseFacts SumFacts IntFacts UtilFacts GaussExact PPolyFacts FTFacts FTModel FTCall BasisFacts BasisInit BasisOps BasisPhys
  AugmentFacts AugmentProps NDFacts KernelFacts KernelProps PointwiseFacts.
Import ListNotations.
Open Scope R_scope.
Notation length := List.length.

Lemma taupoles_init_ok st beta poles u : taupoles_init st beta poles = Ok u <->
  exists m, u = TauPoles st beta poles m /\ largest poles m.
Proof.
  unfold taupoles_init. split.
  - destruct (rmax_list _) as [m|] eqn:E; [|discriminate]. intros [= <-]. exists m. split; [reflexivity|]. now apply rmax_list_largest.
  - intros (m & -> & H). apply rmax_list_largest in H. now rewrite H.
Qed.

Definition pole_at (beta w : R) (t : xr) : R := match t with Fin r => pole_fun beta w r | _ => 0 end.

Lemma map_tau_to_x beta tau xs : map (tau_to_x beta) tau = map Fin xs ->
  exists ts, tau = map Fin ts /\ xs = map (fun r => 2 * r / beta - 1) ts.
Proof.
  revert xs; induction tau as [|t tau IH]; intros [|x xs] E; try discriminate; [exists []; auto|].
  cbn [map] in E. injection E as E1 E2. destruct t as [r| | |]; try discriminate. cbn in E1. injection E1 as <-.
  destruct (IH xs E2) as (ts & -> & ->). exists (r :: ts). auto.
Qed.

Lemma xltb_fin a b : xltb (Fin a) (Fin b) = true <-> a < b.
Proof.
  unfold xltb. cbn [xleb xeqb]. unfold Rleb, Reqb. destruct (Rle_dec a b), (Req_EM_T a b); cbn; split; intros; try lra; try discriminate; reflexivity.
Qed.

Section TP.
Variables (st : string) (beta m : R) (poles : list R) (f : tfun).
Hypotheses (Hb : 0 < beta) (Hm : largest poles m) (Hf : tfun_ok f).
Let u := TauPoles st beta poles m.

Lemma wmax_nonneg : 0 <= m.
Proof. destruct Hm as [I _]. apply in_map_iff in I. destruct I as (x & <- & _). apply Rabs_pos. Qed.

Lemma outside_iff tau : existsb (fun t => xltb t (Fin 0)) tau || existsb (fun t => xltb (Fin beta) t) tau = true <->
  exists t, In t tau /\ (xltb t (Fin 0) = true \/ xltb (Fin beta) t = true).
Proof.
  rewrite orb_true_iff, !existsb_exists. split.
  - intros [(t & I & H)|(t & I & H)]; exists t; auto.
  - intros (t & I & [H|H]); [left|right]; exists t; auto.
Qed.

Lemma tp_raises_outside tau t : In t tau -> (t = PInf \/ t = NInf \/ exists r, t = Fin r /\ (r < 0 \/ beta < r)) ->
  taupoles_call f u tau = Raise RuntimeError.
Proof.
  intros I H. unfold taupoles_call. cbn [tp_beta u].
  assert (E : existsb (fun t => xltb t (Fin 0)) tau || existsb (fun t => xltb (Fin beta) t) tau = true).
  { apply outside_iff. exists t. split; [exact I|]. destruct H as [->|[->|(r & -> & [L|L])]]; [right; reflexivity|left; reflexivity| |].
    - left. now apply xltb_fin.
    - right. now apply xltb_fin. }
  now rewrite E.
Qed.

Lemma tp_zero_poles tau : m = 0 -> Forall (fun t => t = NaN \/ pole_dom beta t) tau ->
  taupoles_call f u tau = Raise ValueError.
Proof.
  intros E0 F. unfold taupoles_call. cbn [tp_beta tp_wmax tp_poles u].
  assert (E : existsb (fun t => xltb t (Fin 0)) tau || existsb (fun t => xltb (Fin beta) t) tau = false).
  { apply not_true_iff_false. rewrite outside_iff. intros (t & I & H). rewrite Forall_forall in F.
    destruct (F t I) as [->|(r & -> & L)]; [destruct H as [H|H]; discriminate|].
    rewrite !xltb_fin in H. lra. }
  rewrite E. rewrite call_rejects; [reflexivity|].
  intros (xs & ys & _ & Ey & _). destruct Hm as [I _]. apply in_map_iff in I. destruct I as (x & _ & I).
  apply (in_map (pole_to_y m)) in I. rewrite Ey in I. apply in_map_iff in I. destruct I as (y & E1 & _).
  unfold pole_to_y in E1. rewrite E0 in E1. unfold Reqb in E1. destruct (Req_EM_T 0 0); [discriminate|congruence].
Qed.

Lemma tp_nan tau : In NaN tau -> Forall (fun t => t = NaN \/ pole_dom beta t) tau ->
  taupoles_call f u tau = Raise ValueError.
Proof.
  intros I F. unfold taupoles_call. cbn [tp_beta tp_wmax tp_poles u].
  assert (E : existsb (fun t => xltb t (Fin 0)) tau || existsb (fun t => xltb (Fin beta) t) tau = false).
  { apply not_true_iff_false. rewrite outside_iff. intros (t & It & H). rewrite Forall_forall in F.
    destruct (F t It) as [->|(r & -> & L)]; [destruct H as [H|H]; discriminate|].
    rewrite !xltb_fin in H. lra. }
  rewrite E. rewrite call_rejects; [reflexivity|].
  intros (xs & ys & Ex & _). apply map_tau_to_x in Ex. destruct Ex as (ts & -> & _).
  apply in_map_iff in I. destruct I as (? & ? & _). discriminate.
Qed.

Lemma tp_call_ok (Hm0 : m <> 0) tau M : taupoles_call f u tau = Ok M <->
  Forall (pole_dom beta) tau /\ M = map (fun l => map (pole_at beta (nth l poles 0)) tau) (seq 0 (length poles)).
Proof.
  assert (Hm1 : 0 < m) by (pose proof wmax_nonneg; lra).
  assert (Ey : map (pole_to_y m) poles = map Fin (map (fun w => w / m) poles)).
  { rewrite map_map. apply map_ext. intros w. unfold pole_to_y, Reqb. destruct (Req_EM_T m 0); [contradiction|reflexivity]. }
  assert (Fy : Forall (fun y => -1 <= y <= 1) (map (fun w => w / m) poles)).
  { apply Forall_forall. intros y I. apply in_map_iff in I. destruct I as (w & <- & I). destruct Hm as [_ H].
    assert (Habs : Rabs w <= m). { rewrite Forall_forall in H. now apply H. }
    unfold Rabs in Habs; destruct (Rcase_abs w).
    all: split; [apply Rmult_le_reg_r with m; [assumption|]; unfold Rdiv; rewrite Rmult_assoc, Rinv_l, Rmult_1_r by assumption; lra
                |apply Rmult_le_reg_r with m; [assumption|]; unfold Rdiv; rewrite Rmult_assoc, Rinv_l, Rmult_1_r by assumption; lra]. }
  assert (IN : forall ts, Forall (fun r => 0 <= r <= beta) ts ->
    taupoles_call f u (map Fin ts) = Ok (map (fun l => map (pole_at beta (nth l poles 0)) (map Fin ts)) (seq 0 (length poles)))).
  { intros ts Ft. unfold taupoles_call. cbn [tp_beta tp_wmax tp_poles u].
    assert (E : existsb (fun t => xltb t (Fin 0)) (map Fin ts) || existsb (fun t => xltb (Fin beta) t) (map Fin ts) = false).
    { apply not_true_iff_false. rewrite outside_iff. intros (t & It & H). apply in_map_iff in It. destruct It as (r & <- & It).
      rewrite Forall_forall in Ft. specialize (Ft r It). rewrite !xltb_fin in H. lra. }
    rewrite E, Ey. rewrite map_map. change (fun x => tau_to_x beta (Fin x)) with (fun x => Fin (2 * x / beta - 1)).
    rewrite <- (map_map (fun x => 2 * x / beta - 1) Fin).
    assert (Fx : Forall (fun x => -1 <= x <= 1) (map (fun x => 2 * x / beta - 1) ts)).
    { apply Forall_forall. intros x I. apply in_map_iff in I. destruct I as (r & <- & I). rewrite Forall_forall in Ft. specialize (Ft r I).
      assert (0 <= 2 * r / beta <= 2); [|lra]. split.
      - apply Rmult_le_pos; [lra|]. apply Rlt_le, Rinv_0_lt_compat, Hb.
      - apply Rmult_le_reg_r with beta; [assumption|]. unfold Rdiv. rewrite Rmult_assoc, Rinv_l, Rmult_1_r by lra. lra. }
    unfold kernel_call. rewrite check_domain_ok by assumption. cbn [bind].
    assert (FX : forall l, fins (map Fin l) = l) by (induction l as [|a l IH]; [reflexivity|]; unfold fins in *; cbn [map flat_map]; cbn; f_equal; exact IH).
    rewrite !FX. f_equal. apply map_ext_in. intros l Hl. apply in_seq in Hl.
    rewrite !map_map. rewrite !map_length. rewrite (map_by_index 0 (fun x => pole_at beta (nth l poles 0) (Fin x))).
    apply map_ext_in. intros i Hi. apply in_seq in Hi.
    rewrite (nth_error_nth_d _ l (kernel_at f (Logistic (beta * m)) (2 * nth i ts 0 / beta - 1) (nth l poles 0 / m) None None)).
    2: { rewrite map_map, (map_nth_error _ _ _ (nth_error_nth' poles 0 (proj2 Hl))). do 2 f_equal.
         rewrite (nth_indep _ 0 ((fun x => 2 * x / beta - 1) 0)) by (rewrite map_length; lia). now rewrite (map_nth (fun x => 2 * x / beta - 1)). }
    cbn [pole_at]. unfold pole_fun. f_equal.
    assert (Hi' : In (nth i ts 0) ts) by (apply nth_In; lia). assert (Hl' : In (nth l poles 0) poles) by (apply nth_In; lia).
    rewrite Forall_forall in Fx, Fy.
    assert (B1 := Fx _ (in_map (fun x => 2 * x / beta - 1) _ _ Hi')). assert (B2 := Fy _ (in_map (fun w => w / m) _ _ Hl')). cbv beta in B1, B2.
    destruct (logistic_has_value f (beta * m) (2 * nth i ts 0 / beta - 1) (nth l poles 0 / m)
                (logistic_formula (beta * m) (2 * nth i ts 0 / beta - 1) (nth l poles 0 / m)) Hf) as [E1 _]; auto.
    { now apply Rmult_lt_0_compat. }
    destruct E1 as [_ E1]. specialize (E1 eq_refl). apply has_value_iff in E1; auto. rewrite <- E1.
    now apply logistic_physical. }
  split.
  - intros E. enough (F : exists ts, tau = map Fin ts /\ Forall (fun r => 0 <= r <= beta) ts).
    { destruct F as (ts & -> & F). rewrite IN in E by assumption. split; [|congruence].
      apply Forall_forall. intros t I. apply in_map_iff in I. destruct I as (r & <- & I). rewrite Forall_forall in F. exists r. auto. }
    unfold taupoles_call in E. cbn [tp_beta tp_wmax tp_poles u] in E.
    destruct (_ || _) eqn:E0 in E; [discriminate|]. apply not_true_iff_false in E0. rewrite outside_iff in E0.
    unfold kernel_call in E. destruct (check_domain_cases (-1) 1 (map (tau_to_x beta) tau) (map (pole_to_y m) poles)) as [[_ (xs & ys & Ex & _)]|[Ee _]].
    2: { rewrite Ee in E. discriminate. }
    apply map_tau_to_x in Ex. destruct Ex as (ts & -> & ->). exists ts. split; [reflexivity|].
    apply Forall_forall. intros r I. split; apply Rnot_lt_le; intros L; apply E0; exists (Fin r); (split; [now apply in_map|]); [left|right]; now apply xltb_fin.
  - intros [F ->]. assert (X : exists ts, tau = map Fin ts /\ Forall (fun r => 0 <= r <= beta) ts).
    { clear - F. induction F as [|t tau (r & -> & H) F (ts & -> & IH)]; [exists []; auto|]. exists (r :: ts). auto. }
    destruct X as (ts & -> & X). now apply IN.
Qed.
End TP.

Lemma tp_pointwise st beta m poles f : 0 < beta -> largest poles m -> m <> 0 -> tfun_ok f ->
  pointwise 0 (taupoles_call f (TauPoles st beta poles m)) (length poles) /\
  forall t l, 0 <= t <= beta -> (l < length poles)%nat ->
    at_point 0 (taupoles_call f (TauPoles st beta poles m)) (Fin t) l = pole_fun beta (nth l poles 0) t.
Proof.
  intros Hb Hm Hm0 Hf.
  destruct (pointwise_of 0 (taupoles_call f (TauPoles st beta poles m)) (length poles) (pole_dom beta)
              (fun l => pole_at beta (nth l poles 0))) as [H1 H2].
  { intros ps M. now apply tp_call_ok. }
  split; [exact H1|]. intros t l Ht Hl. rewrite H2; [reflexivity| |assumption]. exists t. auto.
Qed.

Lemma mp_pointwise u : pointwise None (matspoles_call u) (length (mp_poles u)).
Proof.
  refine (proj1 (pointwise_of None (matspoles_call u) _ (fun _ => True) 
    (fun l n => pole_value (String.eqb (mp_stat u) "F") (mp_beta u) (nth l (mp_poles u) 0) n) _)).
  intros ps M. unfold matspoles_call. rewrite (map_by_index 0). split.
  - intros [= <-]. split; [|reflexivity]. apply Forall_forall. auto.
  - intros [_ ->]. reflexivity.
Qed.

(** ** Fourier transform of a pole *)
Lemma pole_den beta w (n : Z) : 0 < beta -> (w <> 0 \/ n <> 0%Z) ->
  0 < w ^ 2 + (PI * IZR n / beta) ^ 2.
Proof.
  intros Hb [H|H].
  - assert (0 < w ^ 2) by (apply pow2_gt_0; exact H). assert (0 <= (PI * IZR n / beta) ^ 2) by apply pow2_ge_0. lra.
  - assert (0 < (PI * IZR n / beta) ^ 2).
    { apply pow2_gt_0. apply not_0_IZR in H. pose proof PI_RGT_0. unfold Rdiv.
      apply Rmult_integral_contrapositive_currified; [apply Rmult_integral_contrapositive_currified; lra|].
      apply Rinv_neq_0_compat. lra. }
    assert (0 <= w ^ 2) by apply pow2_ge_0. lra.
Qed.

Lemma pole_hat_parts (fermi : bool) beta w n : 0 < beta -> (w <> 0 \/ n <> 0%Z) ->
  let z := if fermi then 1 else tanh (beta * w / 2) in
  let v := PI * IZR n / beta in
  pole_hat fermi beta w n = (- z * w / (w ^ 2 + v ^ 2), - z * v / (w ^ 2 + v ^ 2)).
Proof.
  intros Hb H z v. pose proof (pole_den beta w n Hb H) as D. fold v in D. unfold pole_hat. fold z v.
  apply C_eq; unfold Cdiv, Cminus, Cplus, Copp, Cinv, Cmult, RtoC; cbn [Re Im fst snd].
  all: field; lra.
Qed.

Lemma pole_value_hat (fermi : bool) beta w n : 0 < beta -> (w <> 0 \/ n <> 0%Z) ->
  pole_value fermi beta w (IZR n) = Some (pole_hat fermi beta w n).
Proof.
  intros Hb H. unfold pole_value, pole_hat. replace (IZR n * PI / beta) with (PI * IZR n / beta) by (field; lra).
  destruct (Ceq_dec _ _) as [E|N].
  - exfalso. injection E as E1 E2. pose proof (pole_den beta w n Hb H). 
    assert (w = 0) by lra. assert (PI * IZR n / beta = 0) by lra. subst w. rewrite H2 in H0. nra.
  - do 2 f_equal. destruct fermi; [reflexivity|]. do 2 f_equal. field.
Qed.

Lemma tanh_half x : tanh (x / 2) = (1 - exp (- x)) / (1 + exp (- x)).
Proof.
  unfold tanh, sinh, cosh. replace (- x) with (- (x / 2) + - (x / 2)) by field. rewrite exp_plus.
  set (a := exp (x / 2)). set (b := exp (- (x / 2))). assert (P : a * b = 1) by (unfold a, b; rewrite <- exp_plus, <- exp_0; f_equal; ring).
  assert (0 < a) by apply exp_pos. assert (0 < b) by apply exp_pos.
  assert (E1 : 1 - b * b = b * (a - b)) by (rewrite <- P; ring). assert (E2 : 1 + b * b = b * (a + b)) by (rewrite <- P; ring).
  rewrite E1, E2. field. lra.
Qed.

Lemma pole_fourier (fermi : bool) beta w n : 0 < beta -> (w <> 0 \/ n <> 0%Z) -> Z.even n = negb fermi ->
  is_fourier (fun t => PI * IZR n * t / beta) (pole_fun beta w) 0 beta (pole_hat fermi beta w n).
Proof.
  intros Hb H He. rewrite pole_hat_parts by assumption. pose proof (pole_den beta w n Hb H) as D.
  set (v := PI * IZR n / beta) in *. set (z := if fermi then 1 else tanh (beta * w / 2)).
  assert (Hv : v * beta = PI * IZR n) by (unfold v; field; lra).
  assert (Hph : forall t, PI * IZR n * t / beta = v * t) by (intros t; unfold v; field; lra).
  set (N := 1 + exp (- beta * w)). assert (HN : 0 < N) by (unfold N; pose proof (exp_pos (- beta * w)); lra).
  assert (CS : exists c, cos (v * beta) = c /\ sin (v * beta) = 0 /\ (1 - c * exp (- beta * w)) / N = z).
  { rewrite Hv. destruct fermi; cbn [negb] in He.
    - destruct (odd_phase n He) as [-> ->]. exists (-1). split; [reflexivity|]. split; [reflexivity|].
      unfold z, N. field. unfold N in HN. lra.
    - destruct (even_phase n He) as [-> ->]. exists 1. split; [reflexivity|]. split; [reflexivity|].
      unfold z. rewrite tanh_half. unfold N. replace (- (beta * w)) with (- beta * w) by ring. rewrite Rmult_1_l. reflexivity. }
  destruct CS as (c & Hc & Hs & Hz). split; cbn [Re Im fst snd].
  - eapply is_RInt_eq.
    + eapply is_RInt_fext; [|apply (is_RInt_deriv (fun t => - (exp (- t * w) * (- w * cos (v * t) + v * sin (v * t)) / (w ^ 2 + v ^ 2) / N))
                                                  (fun t => cos (v * t) * - (exp (- t * w) / N)))].
      * intros t. cbv beta. rewrite Hph. reflexivity.
      * intros t. auto_derive; auto. field. lra.
      * intros t. apply (ex_derive_continuous (fun t => cos (v * t) * - (exp (- t * w) / N))). auto_derive; auto.
    + rewrite Hc, Hs, <- Hz, ?Rmult_0_r, cos_0, ?sin_0. replace (- 0 * w) with 0 by ring. rewrite exp_0. field. lra.
  - eapply is_RInt_eq.
    + eapply is_RInt_fext; [|apply (is_RInt_deriv (fun t => - (exp (- t * w) * (- w * sin (v * t) - v * cos (v * t)) / (w ^ 2 + v ^ 2) / N))
                                                  (fun t => sin (v * t) * - (exp (- t * w) / N)))].
      * intros t. cbv beta. rewrite Hph. reflexivity.
      * intros t. auto_derive; auto. field. lra.
      * intros t. apply (ex_derive_continuous (fun t => sin (v * t) * - (exp (- t * w) / N))). auto_derive; auto.
    + rewrite Hc, Hs, <- Hz, ?Rmult_0_r, cos_0, ?sin_0. replace (- 0 * w) with 0 by ring. rewrite exp_0. field. lra.
Qed.
