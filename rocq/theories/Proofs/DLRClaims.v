(** The claims about DLR functions, assembled. *)
From Coq Require Import String ZArith Arith Bool Reals Lia Lra.
From Coquelicot Require Import Coquelicot.
From Coq Require Import List.
From Verif.Model Require Import Base Util Num Poly FT SVE Basis Kernel NDArray Sampling DLR.
From Verif.Spec Require Import SUtil SGauss SPoly SFT SBasis SKernel SSampling SDLR.
From Verif.Proofs Require Import BaseFacts FTFacts FTModel KernelFacts KernelProps PointwiseFacts DLRFacts DLRProps SVEPolicy SamplingExamples.
Import ListNotations.
Open Scope R_scope.
Notation length := List.length.

Lemma largest_zero poles m : largest poles m -> (m = 0 <-> Forall (fun w => w = 0) poles).
Proof.
  intros [I F]. rewrite Forall_forall in *. split.
  - intros -> w Hw. specialize (F w Hw). pose proof (Rabs_pos w). destruct (Req_dec w 0); [assumption|]. pose proof (Rabs_pos_lt w H0). lra.
  - intros H. apply in_map_iff in I. destruct I as (w & <- & Hw). rewrite (H w Hw). apply Rabs_R0.
Qed.

Lemma time_functions f st beta poles u ts : 0 < beta -> tfun_ok f -> taupoles_init st beta poles = Ok u -> (exists w, In w poles /\ w <> 0) ->
  Forall (fun t => 0 <= t <= beta) ts ->
  exists M, taupoles_call f u (map Fin ts) = Ok M /\ length M = length poles /\
  forall p w j t, nth_error poles p = Some w -> nth_error ts j = Some t -> entry_of M p j = Some (pole_fun beta w t).
Proof.
  intros Hb Hf Hu (w0 & I0 & N0) Ht. apply taupoles_init_ok in Hu. destruct Hu as (m & -> & Hm).
  assert (Hm0 : m <> 0). { intros E. apply (largest_zero _ _ Hm) in E. rewrite Forall_forall in E. auto. }
  eexists. split; [apply tp_call_ok; auto; split; [|reflexivity]|].
  - apply Forall_map. eapply Forall_impl; [|exact Ht]. intros t H. exists t. auto.
  - split; [now rewrite map_length, seq_length|]. intros p w j t Hp Hj. unfold entry_of.
    assert (p < length poles)%nat by (apply nth_error_Some; congruence).
    rewrite map_seq_error by assumption. rewrite map_map.
    rewrite (map_nth_error (fun x => pole_at beta (nth p poles 0) (Fin x)) _ _ Hj). cbn [pole_at]. now rewrite (nth_error_nth _ _ _ Hp).
Qed.

Lemma time_outside f st beta poles u tau t : taupoles_init st beta poles = Ok u -> In t tau ->
  t = PInf \/ t = NInf \/ (exists r, t = Fin r /\ (r < 0 \/ beta < r)) ->
  taupoles_call f u tau = Raise RuntimeError.
Proof.
  intros Hu I H. apply taupoles_init_ok in Hu. destruct Hu as (m & -> & Hm). eapply tp_raises_outside; eauto.
Qed.

Lemma time_nan_or_zero f st beta poles u tau : 0 < beta -> tfun_ok f -> taupoles_init st beta poles = Ok u ->
  Forall (fun t => t = NaN \/ pole_dom beta t) tau ->
  In NaN tau \/ Forall (fun w => w = 0) poles ->
  taupoles_call f u tau = Raise ValueError.
Proof.
  intros Hb Hf Hu HT H. apply taupoles_init_ok in Hu. destruct Hu as (m & -> & Hm). destruct H as [H|H].
  - eapply tp_nan; eauto.
  - eapply tp_zero_poles; eauto. now apply (largest_zero _ _ Hm).
Qed.

Lemma taupoles_accepts st beta poles : (poles = [] -> taupoles_init st beta poles = Raise ValueError) /\
                        (poles <> [] -> is_ok (taupoles_init st beta poles)).
Proof.
  split; [intros ->; reflexivity|]. intros H. unfold taupoles_init. destruct poles as [|w ws]; [congruence|]. cbn [map rmax_list].
  destruct (rmax_list (map Rabs ws)); eexists; reflexivity.
Qed.

Lemma frequency_functions u beta (fermi : bool) p w n j v M ns : 0 < beta ->
  mp_beta u = beta -> mp_stat u = (if fermi then "F" else "B")%string ->
  matspoles_call u (map IZR ns) = Ok M ->
  nth_error (mp_poles u) p = Some w -> nth_error ns j = Some n -> entry_of M p j = Some v ->
  Z.even n = negb fermi -> w <> 0 \/ n <> 0%Z ->
  v = Some (pole_hat fermi beta w n) /\
  is_fourier (fun t => PI * IZR n * t / beta) (pole_fun beta w) 0 beta (pole_hat fermi beta w n).
Proof.
  intros Hb Eb Es EM Hp Hj Hv He Hx. split; [|now apply pole_fourier]. unfold matspoles_call in EM.
  assert (M = map (fun w => map (pole_value (mp_stat u =? "F")%string (mp_beta u) w) (map IZR ns)) (mp_poles u)) as -> by congruence.
  unfold entry_of in Hv. rewrite (map_nth_error (fun w => map (pole_value (mp_stat u =? "F")%string (mp_beta u) w) (map IZR ns)) _ _ Hp) in Hv.
  rewrite map_map in Hv. rewrite (map_nth_error (fun x => pole_value (mp_stat u =? "F")%string (mp_beta u) w (IZR x)) _ _ Hj) in Hv.
  assert (v = pole_value (mp_stat u =? "F")%string (mp_beta u) w (IZR n)) as -> by congruence.
  rewrite Eb, Es. replace ((if fermi then "F" else "B") =? "F")%string with fermi by (destruct fermi; reflexivity).
  now apply pole_value_hat.
Qed.

Lemma frequency_nan u p j M ns : matspoles_call u (map IZR ns) = Ok M ->
  nth_error (mp_poles u) p = Some 0 -> nth_error ns j = Some 0%Z -> entry_of M p j = Some None.
Proof.
  intros EM Hp Hj. unfold matspoles_call in EM.
  assert (M = map (fun w => map (pole_value (mp_stat u =? "F")%string (mp_beta u) w) (map IZR ns)) (mp_poles u)) as -> by congruence.
  unfold entry_of. rewrite (map_nth_error (fun w => map (pole_value (mp_stat u =? "F")%string (mp_beta u) w) (map IZR ns)) _ _ Hp).
  rewrite map_map. rewrite (map_nth_error (fun x => pole_value (mp_stat u =? "F")%string (mp_beta u) 0 (IZR x)) _ _ Hj).
  f_equal. unfold pole_value. destruct (Ceq_dec _ _) as [E|N]; [reflexivity|]. exfalso. apply N.
  apply C_eq; unfold Cminus, Cplus, Copp, RtoC; cbn [Re Im fst snd]; unfold Rdiv; ring.
Qed.

Lemma frequency_accepts u ns : exists M, matspoles_call u ns = Ok M /\ length M = length (mp_poles u) /\ Forall (fun row => length row = length ns) M.
Proof.
  eexists. split; [reflexivity|]. split; [apply map_length|]. apply Forall_forall. intros row I. apply in_map_iff in I.
  destruct I as (w & <- & _). apply map_length.
Qed.

Lemma taupoles_example : exists f u, tfun_ok f /\ taupoles_init "F" 2 [-1; 0; 3] = Ok u /\ tp_wmax u = 3.
Proof.
  exists (TFun exp (fun x => exp x - 1) sinh cosh), (TauPoles "F" 2 [-1; 0; 3] 3).
  split; [unfold tfun_ok; cbn [f_exp f_expm1 f_sinh f_cosh]; auto|]. split; [|reflexivity]. apply taupoles_init_ok.
  exists 3. split; [reflexivity|]. split.
  - cbn [map]. right; right; left. apply Rabs_right. lra.
  - repeat constructor; unfold Rabs; destruct (Rcase_abs _); lra.
Qed.
Lemma matspoles_example :
  exists M v, matspoles_call (MatsPoles "B" 2 [0; 3]) (map IZR [-2; 0]%Z) = Ok M /\ entry_of M 1 1 = Some (Some v).
Proof.
  eexists _, _. split; [reflexivity|]. cbn [entry_of mp_poles map nth_error mp_stat mp_beta].
  rewrite (pole_value_hat _ 2 3 0%Z) by (try lra; left; lra). reflexivity.
Qed.
