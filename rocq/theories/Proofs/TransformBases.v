(** uhat is the Fourier integral of u, for the three kinds of basis. *)
From Coq Require Import String ZArith Arith Bool Reals Lia Lra.
From Coquelicot Require Import Coquelicot.
From Coq Require Import List.
From Verif.Model Require Import Base Util Num Poly FT SVE Basis Matsubara Augment Kernel NDArray Sampling DLR.
From Verif.Spec Require Import SUtil SPoly SFT SSVE SBasis SKernel SAugment SSampling SDLR SDefaults STransform.
From Verif.Proofs Require Import BaseFacts SumFacts FTFacts PPolyFacts BasisFacts BasisPhys AugmentFacts AugmentProps PointwiseFacts PointwiseMore
  DLRFacts DLRProps AdapterProps DefaultsSampling TransformFacts.
Import ListNotations.
Open Scope R_scope.
Notation length := List.length.

Lemma bu_at compute b l t f : built compute b -> (l < bsize b)%nat -> represents (bu b) l f -> 0 <= t <= bbeta b ->
  at_point (RtoC 0) (sb_u (sb_of_basis b)) t l = RtoC (f t).
Proof.
  intros Hb Hl Hf Ht. destruct (bu_fresh compute b Hb) as (Hg & Hlen & Hs). destruct (bu_range compute b Hb) as [R1 R2].
  apply (represents_cval _ _ _ Hg Hlen) in Hf; [|lia]. destruct Hf as (c & Ec & Hc).
  unfold at_point. cbn [sb_of_basis sb_u].
  rewrite (proj2 (vcall_arr_ok (bu b) [t] _ Hg Hlen) (conj (Forall_cons t (conj (eq_ind_r (fun a => a <= t) (proj1 Ht) R1) (eq_ind_r (fun a => t <= a) (proj2 Ht) R2)) (Forall_nil _)) eq_refl)).
  cbn [bind]. rewrite map_map. rewrite (nth_error_nth_d _ l [RtoC (f t)] []); [reflexivity|].
  rewrite (map_nth_error _ _ _ Ec). cbn [map]. rewrite Hc; [reflexivity|]. rewrite R1, R2. exact Ht.
Qed.

Lemma bu_represented compute b l : built compute b -> (l < bsize b)%nat -> exists f, represents (bu b) l f.
Proof.
  intros Hb Hl. destruct (bu_fresh compute b Hb) as (Hg & Hlen & Hs).
  destruct (nth_error (vcols (bu b)) l) as [c|] eqn:Ec; [|apply nth_error_None in Ec; lia].
  exists (cval (vgeom (bu b)) c). apply (represents_cval _ _ _ Hg Hlen); [lia|]. exists c. split; auto.
Qed.

Lemma basis_transforms compute b lam n : built compute b -> klam (bkernel b) = Some lam -> allowed b n -> Rabs (IZR n) < 40 * lam ->
  transforms (bbeta b) (sb_of_basis b) (bsize b) n.
Proof.
  intros Hb Hlam Hn Hlt. split; [|split; [exact (uhat_ok_at compute b n Hb Hn)|]].
  { intros t Ht. destruct (bu_fresh compute b Hb) as (Hg & Hlen & _). destruct (bu_range compute b Hb) as [R1 R2]. cbn [sb_of_basis sb_u].
    assert (E : vcall_arr (bu b) [t] = Ok (map (fun c => map (cval (vgeom (bu b)) c) [t]) (vcols (bu b)))).
    { apply (vcall_arr_ok _ _ _ Hg Hlen). split; [|reflexivity]. constructor; [|constructor]. now rewrite R1, R2. }
    rewrite E. eexists. reflexivity. }
  intros l Hl. destruct (bu_represented compute b l Hb Hl) as (f & Hf).
  destruct (uhat_ok_at compute b n Hb Hn) as (M & HM).
  destruct (uhat_phys compute b Hb lam l f [n] M 0 n Hlam HM Hl eq_refl Hlt Hf) as (v & Ev & Hv).
  pose proof (beta_pos compute b Hb) as Pb.
  assert (E : at_point (RtoC 0) (sb_uhat (sb_of_basis b)) n l = v).
  { unfold at_point. cbn [sb_of_basis sb_uhat]. rewrite HM. unfold entry in Ev.
    destruct (nth_error M l) as [row|] eqn:Er; [|discriminate]. rewrite (nth_error_nth_d _ _ _ [] Er). now apply nth_error_nth_d. }
  rewrite E. apply (is_fourier_c_real _ f); [lra| |exact Hv]. intros t Ht. now apply (bu_at compute).
Qed.

(** ** Augmented bases *)
Lemma collect_one {A B} (f : A -> res B) g l : (forall x, In x l -> f x = Ok (g x)) -> collect (map f l) = Ok (map g l).
Proof.
  induction l as [|x l IH]; intros H; [reflexivity|]. cbn [map].
  assert (E : forall x (l : list (res B)), collect (x :: l) = do a <- x; do t <- collect l; Ok (a :: t)) by reflexivity.
  rewrite E, (H x (or_introl eq_refl)), IH by (intros; apply H; now right). reflexivity.
Qed.

Lemma augu_at compute npc a t : built compute (abasis a) -> (forall f, In f (aaugs a) -> tau_aug f /\ aug_beta f = bbeta (abasis a)) ->
  0 <= t <= bbeta (abasis a) ->
  exists M, sb_u (sb_of_basis (abasis a)) [t] = Ok M /\
  sb_u (sb_of_aug npc a) [t] = Ok (map (fun f => [RtoC (tau_fun f t)]) (aaugs a) ++ M).
Proof.
  intros Hb HA Ht. destruct (bu_fresh compute _ Hb) as (Hg & Hlen & Hs). destruct (bu_range compute _ Hb) as [R1 R2].
  cbn [sb_of_basis sb_of_aug sb_u]. unfold augu_call.
  set (V := map (fun c => map (cval (vgeom (bu (abasis a))) c) [t]) (vcols (bu (abasis a)))).
  assert (EV : vcall_arr (bu (abasis a)) [t] = Ok V).
  { apply (vcall_arr_ok _ _ _ Hg Hlen). split; [|reflexivity]. constructor; [|constructor]. rewrite R1, R2. exact Ht. }
  rewrite EV. cbn [bind]. exists (map (map RtoC) V). split; [reflexivity|].
  assert (EA : collect (map (fun f => aug_call f (FltArr (map Fin [t]))) (aaugs a)) = Ok (map (fun f => [Fin (tau_fun f t)]) (aaugs a))).
  { apply collect_one. intros f If. destruct (HA f If) as [T E]. rewrite aug_call_ok; auto. constructor; [|constructor]. now rewrite E. }
  rewrite EA. cbn [bind]. rewrite map_app, !map_map.
  assert (CM : forall X Y : list (res (list C)), forall X' Y', collect X = Ok X' -> collect Y = Ok Y' -> collect (X ++ Y) = Ok (X' ++ Y')).
  { intros X Y X' Y' E1 E2. apply collect_ok. apply Forall2_app; now apply collect_ok. }
  apply CM.
  - apply (collect_one (fun f => collect (map xfin [Fin (tau_fun f t)])) (fun f => [RtoC (tau_fun f t)])). reflexivity.
  - apply (collect_one (fun r => collect (map xfin (map Fin r))) (map RtoC)). intros r _. exact (collect_xfin r (fun t => t)).
Qed.

Lemma auguhat_at compute a n : built compute (abasis a) -> (forall f, In f (aaugs a) -> tau_aug f) -> allowed (abasis a) n -> Z.even n = true ->
  exists M, sb_uhat (sb_of_basis (abasis a)) [n] = Ok M /\
  sb_uhat (sb_of_aug true a) [n] = Ok (map (fun f => [hat_val f n]) (aaugs a) ++ M).
Proof.
  intros Hb HA Hn He. destruct (uhat_ok_at compute _ n Hb Hn) as (M & HM). exists M. cbn [sb_of_basis sb_of_aug sb_uhat]. split; [exact HM|].
  unfold auguhat_call. rewrite HM. cbn [bind].
  rewrite (collect_one _ (fun f => [hat_val f n])); [reflexivity|]. intros f If. specialize (HA f If).
  rewrite aug_hat_ok by (constructor; [exact He|constructor]). destruct f; try destruct HA; reflexivity.
Qed.

Lemma at_app {P} (eval eval' : list P -> res (list (list C))) p l X M : eval [p] = Ok M -> eval' [p] = Ok (X ++ M) ->
  (length X <= l)%nat -> at_point (RtoC 0) eval' p l = at_point (RtoC 0) eval p (l - length X).
Proof. intros E E' Hl. unfold at_point. rewrite E, E'. now rewrite app_nth2 by lia. Qed.
Lemma at_front {P F} (eval' : list P -> res (list (list C))) p l (V : F -> C) fs M f : eval' [p] = Ok (map (fun f => [V f]) fs ++ M) ->
  nth_error fs l = Some f -> at_point (RtoC 0) eval' p l = V f.
Proof.
  intros E El. assert (Hl : (l < length fs)%nat) by (apply nth_error_Some; congruence).
  unfold at_point. rewrite E. rewrite app_nth1 by (rewrite map_length; lia).
  rewrite (nth_error_nth_d _ l [V f] []); [reflexivity|]. exact (map_nth_error (fun f => [V f]) l fs El).
Qed.

Lemma aug_transforms compute a lam n : built compute (abasis a) -> klam (bkernel (abasis a)) = Some lam -> 
  (forall f, In f (aaugs a) -> tau_aug f /\ aug_beta f = bbeta (abasis a)) ->
  allowed (abasis a) n -> Z.even n = true -> Rabs (IZR n) < 40 * lam ->
  transforms (bbeta (abasis a)) (sb_of_aug true a) (augsize a) n.
Proof.
  intros Hb Hlam HA Hn He Hlt. pose proof (beta_pos compute _ Hb) as Pb. split; [|split].
  { intros t Ht. destruct (augu_at compute true a t Hb HA Ht) as (M & _ & E). eexists. exact E. }
  { destruct (auguhat_at compute a n Hb (fun f I => proj1 (HA f I)) Hn He) as (M & _ & E). eexists. exact E. }
  intros l Hl.
  destruct (auguhat_at compute a n Hb (fun f I => proj1 (HA f I)) Hn He) as (M & EM & EM').
  unfold augsize, naug in Hl. destruct (Nat.lt_ge_cases l (length (aaugs a))) as [Hlt'|Hge].
  - destruct (nth_error (aaugs a) l) as [f|] eqn:Ef; [|apply nth_error_None in Ef; lia].
    destruct (HA f (nth_error_In _ _ Ef)) as [Tf Bf].
    rewrite (at_front _ n l (fun f => hat_val f n) (aaugs a) M f EM' Ef).
    assert (Pf : 0 < aug_beta f) by lra. pose proof (hat_fourier f n Tf Pf He) as Hf. rewrite Bf in Hf.
    apply (is_fourier_c_real _ (tau_fun f)); [lra| |exact Hf]. intros t Ht.
    destruct (augu_at compute true a t Hb HA Ht) as (V & _ & EV).
    exact (at_front _ t l (fun f => RtoC (tau_fun f t)) (aaugs a) V f EV Ef).
  - pose proof (proj2 (proj2 (basis_transforms compute _ lam n Hb Hlam Hn Hlt)) (l - length (aaugs a))%nat ltac:(lia)) as HB.
    assert (E1 : at_point (RtoC 0) (sb_uhat (sb_of_aug true a)) n l = at_point (RtoC 0) (sb_uhat (sb_of_basis (abasis a))) n (l - length (aaugs a))%nat).
    { rewrite (at_app _ _ n l _ M EM EM'); rewrite map_length; auto. }
    rewrite E1. destruct HB as [H1 H2].
    assert (E2 : forall t, 0 < t < bbeta (abasis a) -> at_point (RtoC 0) (sb_u (sb_of_aug true a)) t l = at_point (RtoC 0) (sb_u (sb_of_basis (abasis a))) t (l - length (aaugs a))).
    { intros t Ht. destruct (augu_at compute true a t Hb HA ltac:(lra)) as (V & EV & EV'). rewrite (at_app _ _ t l _ V EV EV'); rewrite map_length; auto. }
    split; (eapply is_RInt_ext; [|eassumption]); intros t Ht; rewrite Rmin_left, Rmax_right in Ht by lra; cbv beta; now rewrite E2.
Qed.

(** ** The discrete Lehmann representation *)
Lemma dlr_transforms compute svd f d n : built compute (dl_basis d) -> dlr_built svd d -> tfun_ok f ->
  (exists w, In w (dl_poles d) /\ w <> 0) -> allowed (dl_basis d) n -> n <> 0%Z \/ ~ In 0 (dl_poles d) ->
  transforms (bbeta (dl_basis d)) (sb_of_dlr f d) (length (dl_poles d)) n.
Proof.
  intros Hb Hd Hf (w & Iw & Nw) Hn Hz. pose proof (beta_pos compute _ Hb) as Pb.
  destruct (dlr_inv compute svd _ _ d Hb Hd) as (m & F & _ & _ & Eu & Hm & Eh & _).
  assert (Hm0 : m <> 0). { destruct Hm as [_ HF]. rewrite Forall_forall in HF. specialize (HF w Iw). cbv beta in HF.
    pose proof (Rabs_pos_lt w Nw). lra. }
  assert (Hst : exists fermi : bool, Z.even n = negb fermi /\ String.eqb (bstat (dl_basis d)) "F" = fermi).
  { destruct (buhat_shape compute _ Hb) as (q & ms & Hq & _). unfold allowed, stat_freq in Hn. rewrite Zeven_mod.
    destruct (even_odd_inv _ _ Hq) as [[E _]|[E _]]; rewrite E in *;
      (match type of Hn with context [string_dec ?a ?b] => destruct (string_dec a b); [|] end; try discriminate; try congruence);
      cbn [zeta] in Hn; rewrite Hn; [exists true|exists false]; split; reflexivity. }
  destruct Hst as (fermi & He & Hfermi).
  assert (Hwn : forall k, (k < length (dl_poles d))%nat -> nth k (dl_poles d) 0 <> 0 \/ n <> 0%Z).
  { intros k Hk. destruct Hz as [Hz|Hz]; [now right|]. left. intros E. apply Hz. rewrite <- E. now apply nth_In. }
  assert (EC : sb_uhat (sb_of_dlr f d) [n] = Ok (map (fun w => [pole_hat fermi (bbeta (dl_basis d)) w n]) (dl_poles d))).
  { cbn [sb_of_dlr sb_uhat]. unfold matspoles_call. rewrite Eh. cbn [mp_stat mp_beta mp_poles map bind].
    rewrite Hfermi, map_map. apply collect_one.
    intros w' Iw'. destruct (In_nth _ _ 0 Iw') as (k & Hk & <-). rewrite pole_value_hat by auto. reflexivity. }
  assert (ET : forall t, 0 <= t <= bbeta (dl_basis d) -> sb_u (sb_of_dlr f d) [t] =
    Ok (map (fun l => [RtoC (pole_fun (bbeta (dl_basis d)) (nth l (dl_poles d) 0) t)]) (seq 0 (length (dl_poles d))))).
  { intros t Ht. cbn [sb_of_dlr sb_u]. rewrite Eu. cbn [map].
    rewrite (proj2 (tp_call_ok (bstat (dl_basis d)) _ _ _ f Pb Hm Hf Hm0 [Fin t] _) (conj (Forall_cons _ (ex_intro _ t (conj eq_refl Ht)) (Forall_nil _)) eq_refl)).
    cbn [bind map]. rewrite map_map. reflexivity. }
  split; [intros t Ht; eexists; exact (ET t Ht)|]. split; [eexists; exact EC|]. intros l Hl.
  set (wl := nth l (dl_poles d) 0). assert (Iwl : In wl (dl_poles d)) by now apply nth_In.
  assert (EH : at_point (RtoC 0) (sb_uhat (sb_of_dlr f d)) n l = pole_hat fermi (bbeta (dl_basis d)) wl n).
  { unfold at_point. rewrite EC. rewrite (nth_error_nth_d _ l [pole_hat fermi (bbeta (dl_basis d)) wl n] []); [reflexivity|].
    apply (map_nth_error (fun w => [pole_hat fermi (bbeta (dl_basis d)) w n])). unfold wl. now apply nth_error_nth'. }
  rewrite EH. apply (is_fourier_c_real _ (pole_fun (bbeta (dl_basis d)) wl)); [lra| |].
  - intros t Ht. unfold at_point. rewrite ET by exact Ht.
    rewrite (nth_error_nth_d _ l [RtoC (pole_fun (bbeta (dl_basis d)) wl t)] []); [reflexivity|].
    rewrite map_seq_error by exact Hl. reflexivity.
  - apply pole_fourier; auto. apply Hwn. exact Hl.
Qed.
