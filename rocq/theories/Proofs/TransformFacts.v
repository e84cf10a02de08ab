(** Linearity and uniqueness of the Fourier integral of complex functions; the
    round trip between times and frequencies. *)
From Coq Require Import String ZArith Arith Bool Reals Lia Lra.
From Coquelicot Require Import Coquelicot.
From Coq Require Import List.
From Verif.Model Require Import Base Util Num Poly FT SVE Basis Augment NDArray Sampling.
From Verif.Spec Require Import SUtil SPoly SFT SBasis SSampling STransform.
From Verif.Proofs Require Import BaseFacts SumFacts FTFacts NDFacts LstsqFacts SamplingFacts SplitFacts SamplingProps RecoverFacts SamplingClaims.
Import ListNotations.
Open Scope R_scope.
Notation length := List.length.

(** ** The integral *)
Lemma is_fourier_c_real phase f G a b v : a <= b -> (forall t, a <= t <= b -> G t = RtoC (f t)) ->
  is_fourier phase f a b v -> is_fourier_c phase G a b v.
Proof.
  intros Hab HG [H1 H2]. split.
  - eapply is_RInt_ext; [|exact H1]. intros x Hx. rewrite Rmin_left, Rmax_right in Hx by lra. rewrite HG by lra. cbn. ring.
  - eapply is_RInt_ext; [|exact H2]. intros x Hx. rewrite Rmin_left, Rmax_right in Hx by lra. rewrite HG by lra. cbn. ring.
Qed.

Lemma is_fourier_c_zero phase a b : is_fourier_c phase (fun _ => RtoC 0) a b (RtoC 0).
Proof.
  assert (Z : is_RInt (fun _ : R => 0) a b 0).
  { pose proof (is_RInt_const a b 0) as H. refine (eq_rect _ (is_RInt (fun _ : R => 0) a b) H 0 _).
    unfold scal; cbn; unfold mult; cbn. ring. }
  split; (eapply is_RInt_ext; [|exact Z]); intros x _; cbn; ring.
Qed.
Lemma is_fourier_c_plus phase F G a b v w : is_fourier_c phase F a b v -> is_fourier_c phase G a b w ->
  is_fourier_c phase (fun x => Cplus (F x) (G x)) a b (Cplus v w).
Proof.
  intros [F1 F2] [G1 G2]. split.
  - eapply is_RInt_ext; [|exact (is_RInt_plus _ _ _ _ _ _ F1 G1)]. intros x _. unfold plus; cbn. ring.
  - eapply is_RInt_ext; [|exact (is_RInt_plus _ _ _ _ _ _ F2 G2)]. intros x _. unfold plus; cbn. ring.
Qed.
Lemma is_fourier_c_scal phase G a b v c : is_fourier_c phase G a b v ->
  is_fourier_c phase (fun x => Cmult (G x) c) a b (Cmult v c).
Proof.
  intros [G1 G2]. destruct c as [cr ci]. split.
  - pose proof (is_RInt_minus _ _ _ _ _ _ (is_RInt_scal _ _ _ cr _ G1) (is_RInt_scal _ _ _ ci _ G2)) as H.
    eapply is_RInt_ext; [|replace (Re (Cmult v (cr, ci))) with (minus (scal cr (Re v)) (scal ci (Im v))); [exact H|]].
    + intros x _. unfold minus, plus, opp, scal; cbn; unfold mult; cbn. ring.
    + unfold minus, plus, opp, scal; cbn; unfold mult; cbn. destruct v; cbn. ring.
  - pose proof (is_RInt_plus _ _ _ _ _ _ (is_RInt_scal _ _ _ ci _ G1) (is_RInt_scal _ _ _ cr _ G2)) as H.
    eapply is_RInt_ext; [|replace (Im (Cmult v (cr, ci))) with (plus (scal ci (Re v)) (scal cr (Im v))); [exact H|]].
    + intros x _. unfold minus, plus, opp, scal; cbn; unfold mult; cbn. ring.
    + unfold minus, plus, opp, scal; cbn; unfold mult; cbn. destruct v; cbn. ring.
Qed.
Lemma is_fourier_c_sum phase L (G : nat -> R -> C) a b v (c : nat -> C) :
  (forall l, (l < L)%nat -> is_fourier_c phase (G l) a b (v l)) ->
  is_fourier_c phase (fun x => csumn L (fun l => Cmult (G l x) (c l))) a b (csumn L (fun l => Cmult (v l) (c l))).
Proof.
  induction L as [|L IH]; intros H; [apply is_fourier_c_zero|].
  cbn [csumn]. apply is_fourier_c_plus; [apply IH; auto|]. apply is_fourier_c_scal. auto.
Qed.
Lemma is_fourier_c_unique phase G a b v w : is_fourier_c phase G a b v -> is_fourier_c phase G a b w -> v = w.
Proof.
  intros [A1 A2] [B1 B2]. destruct v as [v1 v2], w as [w1 w2]. cbn [Re Im fst snd] in *. f_equal.
  - rewrite <- (is_RInt_unique _ _ _ _ A1). exact (is_RInt_unique _ _ _ _ B1).
  - rewrite <- (is_RInt_unique _ _ _ _ A2). exact (is_RInt_unique _ _ _ _ B2).
Qed.

Lemma expansion_in_frequency beta b L n g : transforms beta b L n ->
  in_frequency beta (fun t => expansion_at (sb_u b) L t g) n (expansion_at (sb_uhat b) L n g).
Proof.
  intros H. unfold in_frequency, expansion_at.
  apply (is_fourier_c_sum _ L (fun l t => at_point (RtoC 0) (sb_u b) t l) 0 beta (fun l => at_point (RtoC 0) (sb_uhat b) n l) g). exact (proj2 (proj2 H)).
Qed.

(** ** Sampling *)
Section Round.
Variables (svd svd' : mat -> svd_result) (beta : R) (b : sbasis) (L : nat) (pts : list R) (ns : list Z).
Hypothesis Hu : pointwise (RtoC 0) (sb_u b) L.
Hypothesis Huh : pointwise (RtoC 0) (sb_uhat b) L.
Hypothesis HT : Forall (transforms beta b L) ns.

Lemma nth_transforms j : (j < length ns)%nat -> transforms beta b L (nth j ns 0%Z).
Proof. intros Hj. rewrite Forall_forall in HT. apply HT. now apply nth_In. Qed.

(** Values in frequency are the expansions in uhat. *)
Lemma freq_along a g x : (a < length (shp g))%nat -> frequency_values beta b L a ns g x <->
  (a < length (shp g))%nat /\ along a (length ns) (fun c j => expansion_at (sb_uhat b) L (nth j ns 0%Z) c) g x.
Proof.
  intros Ha. split.
  - intros [S E]. split; [exact Ha|]. split; [exact S|]. intros idx V.
    assert (Hj : (nth a idx 0 < length ns)%nat).
    { pose proof (valid_nth _ _ a V) as H. rewrite S, set_nth_len in H by exact Ha. specialize (H Ha). rewrite set_nth_nth in H by lia. exact H. }
    eapply is_fourier_c_unique; [apply E, V|]. apply expansion_in_frequency. now apply nth_transforms.
  - intros [_ [S E]]. split; [exact S|]. intros idx V.
    assert (Hj : (nth a idx 0 < length ns)%nat).
    { pose proof (valid_nth _ _ a V) as H. rewrite S, set_nth_len in H by exact Ha. specialize (H Ha). rewrite set_nth_nth in H by lia. exact H. }
    rewrite E by exact V. apply expansion_in_frequency. now apply nth_transforms.
Qed.

(** Evaluation of an array g' that agrees with g. *)
Lemma along_same_arg {P} (eval : list P -> res (list (list C))) (ps : list P) (d : P) a g g' y :
  (a < length (shp g))%nat -> nth a (shp g) 0%nat = L -> same_outcome (Ok g') (Ok g) ->
  along a (length ps) (fun c j => expansion_at eval L (nth j ps d) c) g' y ->
  along a (length ps) (fun c j => expansion_at eval L (nth j ps d) c) g y.
Proof.
  intros Ha HL [S E] [Sy Ey]. split; [congruence|]. intros idx V. rewrite Ey by exact V. unfold expansion_at.
  apply csumn_ext. intros l Hl. f_equal. apply E. rewrite S. rewrite Sy, S in V.
  rewrite <- (set_nth_same 0%nat a (shp g) Ha) at 1. rewrite HL.
  rewrite <- (set_nth_set a L (length ps) (shp g) Ha). apply valid_set; auto.
Qed.

Lemma tau_evaluates s : tau_sampling svd b pts = Ok s -> forall g a k, axis_of (length (shp g)) k = Some a -> nth a (shp g) 0%nat = L ->
  exists x, t_evaluate svd s g (Some k) None = Ok x /\ time_values b L a pts g x.
Proof.
  intros Hs g a k Ea HL. pose proof (proj1 (tau_eval svd b L pts s Hu Hs) g k) as H. cbv beta in H. rewrite Ea, HL, Nat.eqb_refl in H. exact H.
Qed.
Lemma freq_evaluates pos s : matsubara_sampling svd b ns pos = Ok s -> forall g a k, axis_of (length (shp g)) k = Some a -> nth a (shp g) 0%nat = L ->
  exists x, m_evaluate svd s g (Some k) None = Ok x /\ frequency_values beta b L a ns g x.
Proof.
  intros Hs g a k Ea HL. pose proof (proj1 (mats_eval svd b L ns pos s Huh Hs) g k) as H. cbv beta in H. rewrite Ea, HL, Nat.eqb_refl in H.
  destruct H as (x & E & A). exists x. split; [exact E|]. pose proof (axis_of_lt _ _ _ Ea) as Ha. apply freq_along; auto.
Qed.

Lemma fit_back (fit : nd C -> Z -> res (nd C)) N (f F : (nat -> C) -> nat -> C) (P : (nat -> C) -> Prop) :
  works_along_axis fit N L f ->
  (forall c v, P c -> (forall i, (i < N)%nat -> v i = F c i) -> forall l, (l < L)%nat -> f v l = c l) ->
  forall g x a k, axis_of (length (shp g)) k = Some a -> nth a (shp g) 0%nat = L ->
  (forall idx, valid_index (shp g) idx -> P (fun l => elt g (set_nth a l idx))) ->
  along a N F g x -> exists z, fit x k = Ok z /\ same_outcome (Ok z) (Ok g).
Proof.
  intros W HR g x a k Ea HL HP Al. pose proof (axis_of_lt _ _ _ Ea) as Ha. pose proof (W x k) as H.
  rewrite (along_len _ _ _ _ _ Al Ha), Ea in H.
  assert (HN : nth a (shp x) 0%nat = N) by (destruct Al as [-> _]; apply set_nth_nth; lia).
  rewrite HN, Nat.eqb_refl in H. destruct H as (z & Ez & Az). exists z. split; [exact Ez|].
  exact (along_recover P a L N F f g x z Ha HL Al Az HP HR).
Qed.

(** Fit in time, evaluate in frequency. *)
Lemma time_to_frequency st pos sm : tau_sampling svd b pts = Ok st -> matsubara_sampling svd' b ns pos = Ok sm ->
  let A := d_a (ts_matrix st) in is_svd A (svd A) -> nonzero A -> full_rank A ->
  forall g x a k, axis_of (length (shp g)) k = Some a -> nth a (shp g) 0%nat = L -> time_values b L a pts g x ->
  exists c y, coeffs (t_fit svd st x (Some k) None) = Ok c /\ m_evaluate svd' sm c (Some k) None = Ok y /\ frequency_values beta b L a ns g y.
Proof.
  intros Hs Hm A HS HN HF g x a k Ea HL HX. pose proof (axis_of_lt _ _ _ Ea) as Ha.
  destruct (tau_fit svd b pts st Hs HS HN) as (f & Hf & W & _). fold A in Hf, W.
  destruct (tau_matrix svd b L pts st Hu Hs) as (R1 & R2 & R3). fold A in R1, R2, R3. rewrite R1, R2 in W.
  destruct (fit_back _ _ f (fun c i => expansion_at (sb_u b) L (nth i pts 0) c) (fun _ => True) W) with (g := g) (x := x) (a := a) (k := k)
    as (z & Ez & Sz); auto.
  { intros c v _ Hv l Hl. apply (lsq_recovers A c v (f v) (Hf v) HF); [|lia]. intros i Hi. rewrite R1 in Hi. rewrite Hv by exact Hi.
    unfold apply_mat, expansion_at. rewrite R2. apply csumn_ext. intros l' Hl'. now rewrite R3. }
  exists z. destruct Sz as [Sz Vz].
  pose proof (proj1 (mats_eval svd' b L ns pos sm Huh Hm) z k) as H. cbv beta in H. rewrite Sz, Ea, HL, Nat.eqb_refl in H.
  destruct H as (y & E & Al). exists y. split; [exact Ez|]. split; [exact E|].
  apply freq_along; [exact Ha|]. split; [exact Ha|].
  apply (along_same_arg (sb_uhat b) ns 0%Z a g z); auto. split; auto.
Qed.

Lemma frequency_to_time st sm : tau_sampling svd b pts = Ok st -> matsubara_sampling svd' b ns false = Ok sm ->
  let A := m_a (ms_matrix sm) in is_svd A (svd' A) -> nonzero A -> full_rank A ->
  forall g x a k, axis_of (length (shp g)) k = Some a -> nth a (shp g) 0%nat = L -> frequency_values beta b L a ns g x ->
  exists c y, coeffs (m_fit svd' sm x (Some k) None) = Ok c /\ t_evaluate svd st c (Some k) None = Ok y /\ time_values b L a pts g y.
Proof.
  intros Hs Hm A HS HN HF g x a k Ea HL HX. pose proof (axis_of_lt _ _ _ Ea) as Ha. apply freq_along in HX; [|exact Ha]. destruct HX as [_ HX].
  destruct (mats_fit svd' b ns sm Hm HS HN) as (f & Hf & W & _). fold A in Hf, W.
  destruct (mats_matrix svd' b L ns false sm Huh Hm) as (R1 & R2 & R3). fold A in R1, R2, R3. rewrite R1, R2 in W.
  destruct (fit_back _ _ f (fun c i => expansion_at (sb_uhat b) L (nth i ns 0%Z) c) (fun _ => True) W) with (g := g) (x := x) (a := a) (k := k)
    as (z & Ez & Sz); auto.
  { intros c v _ Hv l Hl. apply (lsq_recovers A c v (f v) (Hf v) HF); [|lia]. intros i Hi. rewrite R1 in Hi. rewrite Hv by exact Hi.
    unfold apply_mat, expansion_at. rewrite R2. apply csumn_ext. intros l' Hl'. now rewrite R3. }
  exists z. destruct Sz as [Sz Vz].
  pose proof (proj1 (tau_eval svd b L pts st Hu Hs) z k) as H. cbv beta in H. rewrite Sz, Ea, HL, Nat.eqb_refl in H.
  destruct H as (y & E & Al). exists y. split; [exact Ez|]. split; [exact E|].
  apply (along_same_arg (sb_u b) pts 0 a g z); auto. split; auto.
Qed.

Lemma positive_to_time st sm : tau_sampling svd b pts = Ok st -> matsubara_sampling svd' b ns true = Ok sm ->
  let A := m_a (ms_matrix sm) in
  is_real_svd (stacked A (zoff ns)) (svd' (stacked A (zoff ns))) -> nonzero A -> zero_row_real ns A -> full_real_rank A ->
  forall g x a k, axis_of (length (shp g)) k = Some a -> nth a (shp g) 0%nat = L -> real_array g -> frequency_values beta b L a ns g x ->
  exists c y, coeffs (m_fit svd' sm x (Some k) None) = Ok c /\ t_evaluate svd st c (Some k) None = Ok y /\ time_values b L a pts g y.
Proof.
  intros Hs Hm A HS HN HZ HF g x a k Ea HL HR HX. pose proof (axis_of_lt _ _ _ Ea) as Ha. apply freq_along in HX; [|exact Ha]. destruct HX as [_ HX].
  destruct (pos_fit svd' b ns sm Hm HS HN HZ) as (f & Hf & W & _). fold A in Hf, W.
  destruct (mats_matrix svd' b L ns true sm Huh Hm) as (R1 & R2 & R3). fold A in R1, R2, R3. rewrite R1, R2 in W.
  destruct (fit_back _ _ f (fun c i => expansion_at (sb_uhat b) L (nth i ns 0%Z) c) (real_vec L) W) with (g := g) (x := x) (a := a) (k := k)
    as (z & Ez & Sz); auto.
  { intros c v Rc Hv l Hl. apply (real_lsq_recovers A c v (f v) (Hf v) HF); [rewrite R2; exact Rc| |lia]. intros i Hi. rewrite R1 in Hi. rewrite Hv by exact Hi.
    unfold apply_mat, expansion_at. rewrite R2. apply csumn_ext. intros l' Hl'. now rewrite R3. }
  { intros idx V l Hl. apply HR. apply valid_set_same; auto. lia. }
  exists z. destruct Sz as [Sz Vz].
  pose proof (proj1 (tau_eval svd b L pts st Hu Hs) z k) as H. cbv beta in H. rewrite Sz, Ea, HL, Nat.eqb_refl in H.
  destruct H as (y & E & Al). exists y. split; [exact Ez|]. split; [exact E|].
  apply (along_same_arg (sb_u b) pts 0 a g z); auto. split; auto.
Qed.
End Round.
