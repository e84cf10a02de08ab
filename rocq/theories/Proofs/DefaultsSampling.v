(** Sampling objects made with default points, and basis sets. *)
From Coq Require Import String ZArith Arith Bool Reals Lia Lra Classical_Prop.
From Coquelicot Require Import Coquelicot.
From Coq Require Import List Sorting.Sorted.
From Verif.Model Require Import Base Util Num Roots Matsubara Poly FT SVE Basis Kernel Augment NDArray Sampling DLR Defaults.
From Verif.Spec Require Import SUtil SRoots SMatsubara SGauss SPoly SFT SSVE SBasis SKernel SAugment SSampling SDLR SDefaults.
From Verif.Proofs Require Import BaseFacts MatsubaraFacts DefaultMatsubara BasisInit BasisProps BasisOps BasisPhys BasisPoints FTCall PPolyFacts AugmentFacts AdapterProps
  AugmentProps PointwiseFacts PointwiseMore DLRFacts DLRProps SamplingFacts SamplingProps SamplingClaims PointsFacts DefaultsFacts DefaultsProps.
Import ListNotations.
Open Scope R_scope.
Notation length := List.length.

Lemma ends_unique {A} (run : nat -> option A) r r' : ends_with run r -> ends_with run r' -> r = r'.
Proof.
  intros (n & Hn) (m & Hm). specialize (Hn (Nat.max n m) ltac:(lia)). specialize (Hm (Nat.max n m) ltac:(lia)). congruence.
Qed.

Lemma ravel_as_array l : ravel (as_array l) = l.
Proof. exact (ravel_array1 0 l). Qed.

(** ** Times *)
Lemma tau_from svd sb L run pts w : pointwise (RtoC 0) (sb_u sb) L -> ends_with run (Ok (pts, w)) ->
  (forall t, In t pts -> is_ok (sb_u sb [t])) ->
  exists s, ends_with (fun fuel => tau_of_points svd sb (run fuel)) (Ok (s, w)) /\ ts_points s = pts /\
    tau_sampling svd sb pts = Ok s /\ tau_sampling_at svd sb (as_array pts) = Ok s.
Proof.
  intros HP Hr Hok. destruct (proj2 (proj1 (HP pts)) Hok) as [M EM].
  assert (Hs : exists s, tau_sampling svd sb pts = Ok s /\ ts_points s = pts).
  { unfold tau_sampling. rewrite EM. cbn [bind]. rewrite decomposed_none. cbn [bind]. eexists. split; reflexivity. }
  destruct Hs as (s & Hs & H1). exists s. split.
  - revert Hr. apply ends_map. intros fuel E. unfold tau_of_points. rewrite E. cbn [after]. rewrite Hs. reflexivity.
  - split; [exact H1|]. split; [exact Hs|]. unfold tau_sampling_at. 
    unfold ndim. cbn [as_array shp List.length Nat.eqb negb]. rewrite ravel_as_array. exact Hs.
Qed.

Lemma tau_raise svd sb run e : ends_with run (Raise e) -> ends_with (fun fuel => tau_of_points svd sb (run fuel)) (Raise e).
Proof. apply ends_map. intros fuel E. unfold tau_of_points. rewrite E. reflexivity. Qed.

Section Times.
Variable compute : kern -> option R -> res sve_result.

Lemma default_times b n : built compute b -> tau_points_exist b n ->
  exists pts w, ends_with (fun fuel => default_tau (fun x => x) fuel b (Some (Z.of_nat n))) (Ok (pts, w)) /\
    good_times (bbeta b) pts /\ (w = true <-> length pts <> n).
Proof.
  intros Hb (p & P1 & P2 & P3). destruct (BasisPoints.tau_points compute b n p Hb P1 P2 P3) as (pts & w & H1 & H2 & H3 & _ & H4).
  exists pts, w. unfold good_times. auto.
Qed.

Lemma default_tau_none rnd fuel b : default_tau rnd fuel b None = default_tau rnd fuel b (Some (Z.of_nat (bsize b))).
Proof. reflexivity. Qed.

Lemma u_ok_at b t : built compute b -> 0 <= t <= bbeta b -> is_ok (sb_u (sb_of_basis b) [t]).
Proof.
  intros Hb Ht. destruct (bu_fresh compute b Hb) as (Hg & Hl & Hs). destruct (bu_range compute b Hb) as [R1 R2].
  cbn [sb_of_basis sb_u]. assert (E : vcall_arr (bu b) [t] = Ok (map (fun c => map (cval (vgeom (bu b)) c) [t]) (vcols (bu b)))).
  { apply (vcall_arr_ok _ _ _ Hg Hl). split; auto. constructor; [rewrite R1, R2; exact Ht|constructor]. }
  rewrite E. cbn [bind]. eexists. reflexivity.
Qed.

Lemma tau_default_ok svd b : built compute b -> tau_points_exist b (bsize b) ->
  exists s w, ends_with (fun fuel => tau_default (fun x => x) fuel svd b) (Ok (s, w)) /\
    ends_with (fun fuel => default_tau (fun x => x) fuel b None) (Ok (ts_points s, w)) /\
    tau_sampling svd (sb_of_basis b) (ts_points s) = Ok s /\
    tau_sampling_at svd (sb_of_basis b) (as_array (ts_points s)) = Ok s /\
    good_times (bbeta b) (ts_points s) /\ (w = true <-> length (ts_points s) <> bsize b).
Proof.
  intros Hb Hp. destruct (default_times b (bsize b) Hb Hp) as (pts & w & H1 & H2 & H3).
  destruct (tau_from svd (sb_of_basis b) _ (fun fuel => default_tau (fun x => x) fuel b None) pts w (u_pointwise compute b Hb) H1) as (s & S1 & S2 & S3 & S4).
  { intros t Ht. apply u_ok_at; auto. destruct H2 as [_ H2]. rewrite Forall_forall in H2. auto. }
  exists s, w. rewrite S2. auto 8.
Qed.

Lemma tau_default_aug_ok svd a : built compute (abasis a) -> tau_points_exist (abasis a) (augsize a) ->
  Forall (fun f => tau_aug f /\ aug_beta f = bbeta (abasis a)) (aaugs a) ->
  exists s w, ends_with (fun fuel => tau_default_aug (fun x => x) fuel svd a) (Ok (s, w)) /\
    tau_sampling svd (sb_of_aug true a) (ts_points s) = Ok s /\
    tau_sampling_at svd (sb_of_aug true a) (as_array (ts_points s)) = Ok s /\
    good_times (bbeta (abasis a)) (ts_points s) /\ (w = true <-> length (ts_points s) <> augsize a).
Proof.
  intros Hb Hp Ha. destruct (default_times (abasis a) (augsize a) Hb Hp) as (pts & w & H1 & H2 & H3).
  destruct (tau_from svd (sb_of_aug true a) _ (fun fuel => aug_default_tau (fun x => x) fuel a None) pts w (augu_pointwise compute true a Hb) H1) as (s & S1 & S2 & S3 & S4).
  { intros t Ht. destruct H2 as [_ H2]. rewrite Forall_forall in H2. specialize (H2 t Ht).
    destruct (u_ok_at (abasis a) t Hb H2) as [B EB]. cbn [sb_of_basis sb_u] in EB.
    destruct (vcall_arr (bu (abasis a)) [t]) as [B'|] eqn:Ev; [|discriminate]. clear EB B.
    cbn [sb_of_aug sb_u]. unfold augu_call. rewrite Ev. cbn [bind].
    assert (HA : exists Q, collect (map (fun f => aug_call f (FltArr (map Fin [t]))) (aaugs a)) = Ok Q /\
                   Forall (fun row => is_ok (collect (map xfin row))) Q).
    { clear - Ha H2. induction Ha as [|f fs [T B] _ IH]; [exists []; split; [reflexivity|constructor]|].
      destruct IH as (Q & EQ & FQ). cbn [map collect]. cbn [map] in EQ. rewrite EQ.
      assert (Hd : Forall (fun t => 0 <= t <= aug_beta f) [t]) by (constructor; [rewrite B; exact H2|constructor]).
      pose proof (aug_call_ok f [t] T Hd) as EA. cbn [map] in EA. rewrite EA. cbn [bind]. eexists. split; [reflexivity|]. constructor; auto.
      cbn [map collect xfin bind]. eexists. reflexivity. }
    destruct HA as (Q & EQ & FQ). rewrite EQ. cbn [bind]. rewrite map_app.
    assert (HC : forall X, Forall (fun row => is_ok (collect (map xfin row))) X -> is_ok (collect (map (fun row => @collect C (map xfin row)) X))).
    { induction 1 as [|x X [v E] _ [Y EY]]; [eexists; reflexivity|]. cbn [map collect]. rewrite E. cbn [bind]. rewrite EY. cbn [bind]. eexists; reflexivity. }
    rewrite <- map_app. apply HC. apply Forall_app. split; auto. apply Forall_map, Forall_forall. intros row _.
    eexists. exact (collect_xfin row (fun t => t)). }
  exists s, w. rewrite S2. auto 8.
Qed.

(** A constant in Matsubara frequency has no values in time. *)
Lemma xfin_cases x : exists c, xfin x = Ok c \/ xfin x = Raise ValueError.
Proof. destruct x; [eexists; left; reflexivity| | |]; exists (RtoC 0); right; reflexivity. Qed.

Lemma row_cases row : exists v, collect (map xfin row) = Ok v \/ collect (map xfin row) = Raise ValueError.
Proof.
  induction row as [|x row (v & IH)]; [exists []; left; reflexivity|]. cbn [map collect].
  destruct (xfin_cases x) as (c & [-> | ->]); cbn [bind]; [|exists []; auto].
  destruct IH as [-> | ->]; cbn [bind]; [eexists; left; reflexivity|exists []; auto].
Qed.

Lemma aug_nan_raises a pts : built compute (abasis a) -> pts <> [] -> (exists f, In f (aaugs a) /\ ~ tau_aug f) ->
  sb_u (sb_of_aug true a) pts = Raise ValueError.
Proof.
  intros Hb Hne (f & If & Hf). cbn [sb_of_aug sb_u].
  destruct a as [b augs]. cbn [abasis aaugs] in *. destruct (augu_success compute b Hb augs pts) as [S1 S2].
  destruct (classic (Forall (fun t => 0 <= t <= bbeta b) pts /\ (forall f, In f augs -> Forall (fun t => 0 <= t <= aug_beta f) pts))) as [Hin|Hin].
  2:{ rewrite (S2 Hin). reflexivity. }
  destruct (S1 Hin) as [M EM]. rewrite EM. cbn [bind]. apply collect_raise.
  - intros r Hr. apply in_map_iff in Hr as (row & <- & _). apply row_cases.
  - destruct f as [beta|beta|beta]; try (exfalso; apply Hf; exact I).
    pose proof (aug_call_nan beta pts (proj2 Hin _ If)) as E0.
    unfold augu_call in EM. cbn [abasis aaugs] in EM. destruct (vcall_arr (bu b) pts) as [B|]; [|discriminate]. cbn [bind] in EM.
    destruct (collect (map (fun f => aug_call f (FltArr (map Fin pts))) augs)) as [Q|] eqn:EQ; [|discriminate]. cbn [bind] in EM. injection EM as <-.
    apply collect_map_nth in EQ as [_ EQ]. apply In_nth_error in If as [i Hi]. destruct (EQ i _ Hi) as (row & Er & Ei).
    rewrite E0 in Er. injection Er as <-.
    exists (collect (map xfin (map (fun _ => NaN) pts))). split.
    + apply in_map_iff. exists (map (fun _ => NaN) pts). split; auto. apply in_or_app. left. apply (nth_error_In _ _ Ei).
    + destruct pts; [congruence|]. reflexivity.
Qed.

(** A constant in Matsubara frequency has no values in time. *)
Lemma tau_default_aug_nan svd a pts w : built compute (abasis a) ->
  ends_with (fun fuel => aug_default_tau (fun x => x) fuel a None) (Ok (pts, w)) -> pts <> [] ->
  (exists f, In f (aaugs a) /\ ~ tau_aug f) ->
  ends_with (fun fuel => tau_default_aug (fun x => x) fuel svd a) (Raise ValueError).
Proof.
  intros Hb Hr Hne Hf. revert Hr. apply ends_map. intros fuel E. unfold tau_default_aug, tau_of_points. rewrite E. cbn [after].
  unfold tau_sampling. rewrite (aug_nan_raises a pts Hb Hne Hf). reflexivity.
Qed.

Lemma tau_default_dlr_ok svd f d svd' : built compute (dl_basis d) -> dlr_built svd' d -> tfun_ok f -> (exists w, In w (dl_poles d) /\ w <> 0) ->
  tau_points_exist (dl_basis d) (bsize (dl_basis d)) ->
  exists s w, ends_with (fun fuel => tau_default_dlr (fun x => x) fuel svd f d) (Ok (s, w)) /\
    tau_sampling svd (sb_of_dlr f d) (ts_points s) = Ok s /\
    tau_sampling_at svd (sb_of_dlr f d) (as_array (ts_points s)) = Ok s /\
    ends_with (fun fuel => default_tau (fun x => x) fuel (dl_basis d) None) (Ok (ts_points s, w)) /\
    good_times (bbeta (dl_basis d)) (ts_points s) /\ (w = true <-> length (ts_points s) <> bsize (dl_basis d)).
Proof.
  intros Hb Hd Hf Hw Hp. destruct (default_times (dl_basis d) _ Hb Hp) as (pts & w & H1 & H2 & H3).
  pose proof (dlru_pointwise compute svd' f d Hb Hd Hf Hw) as HP.
  destruct (tau_from svd (sb_of_dlr f d) _ (fun fuel => dlr_default_tau (fun x => x) fuel d) pts w HP H1) as (s & S1 & S2 & S3 & S4).
  { intros t Ht. destruct H2 as [_ H2]. rewrite Forall_forall in H2. specialize (H2 t Ht).
    destruct (dlr_inv compute svd' _ _ d Hb Hd) as (m & F & _ & _ & Eu & Hm & _).
    assert (Hm0 : m <> 0). { destruct Hw as (v & Iv & Nv). destruct Hm as [_ HF]. rewrite Forall_forall in HF. specialize (HF v Iv). cbv beta in HF.
      pose proof (Rabs_pos_lt v Nv). lra. }
    cbn [sb_of_dlr sb_u]. rewrite Eu. pose proof (beta_pos compute _ Hb) as Pb.
    assert (FD : Forall (pole_dom (bbeta (dl_basis d))) (map Fin [t])) by (constructor; [exists t; auto|constructor]).
    rewrite (proj2 (tp_call_ok _ _ _ _ f Pb Hm Hf Hm0 (map Fin [t]) _) (conj FD eq_refl)).
    cbn [bind]. eexists. reflexivity. }
  exists s, w. rewrite S2. auto 8.
Qed.
End Times.

(** ** Frequencies *)
Lemma mats_from_values svd sb run wn w (po : bool) M : ends_with run (Ok (wn, w)) -> sb_uhat sb wn = Ok M ->
  (po = true -> wn = [] -> ends_with (fun fuel => mats_of_points svd sb po (run fuel)) (Raise IndexError)) /\
  (po = false \/ wn <> [] /\ (forall A, svd_shapes A (svd A)) ->
   exists s, ends_with (fun fuel => mats_of_points svd sb po (run fuel)) (Ok (s, w)) /\ ms_points s = wn /\ ms_positive s = po /\
    matsubara_sampling svd sb wn po = Ok s /\
    (StronglySorted Z.le wn -> (po = true -> Forall (fun n => 0 <= n)%Z wn) -> matsubara_sampling_at svd sb (IntArr wn) po = Ok s)).
Proof.
  intros Hr EM. split.
  { intros -> ->. revert Hr. apply ends_map. intros fuel E. unfold mats_of_points. rewrite E. cbn [after].
    unfold matsubara_sampling. rewrite EM. reflexivity. }
  intros Hc.
  assert (Hs : exists s, matsubara_sampling svd sb wn po = Ok s).
  { unfold matsubara_sampling. rewrite EM. cbn [bind]. destruct po.
    - destruct Hc as [?|[Hne Hsh]]; [discriminate|]. destruct wn as [|p0 wn]; [congruence|].
      unfold split_decomposed. set (A := sampling_matrix _ _). destruct (Hsh (stacked A (if (p0 =? 0)%Z then 1%nat else 0%nat))) as (_ & _ & Q3 & Q4).
      cbn [split_complex r_u r_s r_vh mr mc]. rewrite Q3, Q4. cbn [stacked mc].
      unfold check_svd_result. cbn [List.length]. rewrite !Nat.eqb_refl. cbn [negb orb andb]. cbn [bind]. eexists. reflexivity.
    - rewrite decomposed_none. cbn [bind]. eexists. reflexivity. }
  destruct Hs as [s Hs]. exists s. destruct (mats_inv _ _ _ _ _ Hs) as (_ & _ & _ & H1 & H2 & _). split.
  { revert Hr. apply ends_map. intros fuel E. unfold mats_of_points. rewrite E. cbn [after]. rewrite Hs. reflexivity. }
  split; [exact H1|]. split; [exact H2|]. split; [exact Hs|]. intros Hso Hpos.
  unfold matsubara_sampling_at. rewrite int_reduced. cbn [bind]. rewrite (zsort_of_sorted wn Hso).
  destruct po; cbn [bind]; [|exact Hs]. destruct wn as [|p0 wn]; [destruct Hc as [?|[Hne _]]; [discriminate|congruence]|].
  specialize (Hpos eq_refl). inversion Hpos; subst. rewrite (proj2 (Z.leb_le 0 p0)) by assumption. exact Hs.
Qed.

Lemma mats_from svd sb L run wn w (po : bool) : pointwise (RtoC 0) (sb_uhat sb) L -> ends_with run (Ok (wn, w)) ->
  (forall n, In n wn -> is_ok (sb_uhat sb [n])) ->
  (po = true -> wn = [] -> ends_with (fun fuel => mats_of_points svd sb po (run fuel)) (Raise IndexError)) /\
  (po = false \/ wn <> [] /\ (forall A, svd_shapes A (svd A)) ->
   exists s, ends_with (fun fuel => mats_of_points svd sb po (run fuel)) (Ok (s, w)) /\ ms_points s = wn /\ ms_positive s = po /\
    matsubara_sampling svd sb wn po = Ok s /\
    (StronglySorted Z.le wn -> (po = true -> Forall (fun n => 0 <= n)%Z wn) -> matsubara_sampling_at svd sb (IntArr wn) po = Ok s)).
Proof.
  intros HP Hr Hok. destruct (proj2 (proj1 (HP wn)) Hok) as [M EM]. exact (mats_from_values svd sb run wn w po M Hr EM).
Qed.

Lemma mats_raise svd sb run po e : ends_with run (Raise e) -> ends_with (fun fuel => mats_of_points svd sb po (run fuel)) (Raise e).
Proof. apply ends_map. intros fuel E. unfold mats_of_points. rewrite E. reflexivity. Qed.

Section Freqs.
Variable compute : kern -> option R -> res sve_result.

(** Default frequencies are always allowed ones. *)
Lemma default_allowed grid b L (po : bool) wn w : built compute b -> search_grid grid ->
  ends_with (fun fuel => basis_matsubara fuel grid b (Some L) po) (Ok (wn, w)) ->
  Forall (allowed b) wn /\ (po = true -> Forall (fun n => 0 <= n)%Z wn) /\ (po = false -> symmetric wn).
Proof.
  intros Hb Hg Hend. destruct (full_shape compute b Hb) as (HQ & HK & HN & _).
  set (N := length (ss (bsve b))) in *. set (lr := l_requested (stat_freq b) L).
  pose proof Hend as (n0 & Hn0). specialize (Hn0 n0 ltac:(lia)). unfold basis_matsubara, uhat_default in Hn0. rewrite HQ in Hn0.
  replace (search_freq (ft_of (stat_freq b))) with (Ok (stat_freq b) : res freq) in Hn0 by (destruct (stat_freq b); reflexivity).
  cbn [after] in Hn0. rewrite HK in Hn0. fold N lr in Hn0.
  destruct (searched_item (buhat_full b) (if (lr <? N)%nat then Z.of_nat lr else -1)) as [g|] eqn:Eg; [|discriminate]. clear Hn0.
  set (uhat := map (fun l => match searched_item (buhat_full b) (Z.of_nat l) with Ok g => g | Raise _ => fun _ => 0 end) (seq 0 N)).
  assert (Hne : uhat <> []).
  { intros E. apply (f_equal (@length _)) in E. unfold uhat in E. rewrite map_length, seq_length in E. cbn in E. lia. }
  destruct (default_matsubara_end grid (stat_freq b) uhat L po Hg Hne) as (out & Hout & H1 & _).
  assert (E : Ok (wn, w) = out).
  { apply (ends_unique (fun fuel => basis_matsubara fuel grid b (Some L) po)); auto. revert Hout. apply ends_map. intros fuel E.
    unfold basis_matsubara. rewrite (uhat_default_eq compute b Hb fuel grid L po _ g eq_refl); auto. }
  destruct (H1 wn w (eq_sym E)) as (P1 & P2 & P3 & _). split; [exact P1|]. auto.
Qed.

Lemma uhat_ok_at b n : built compute b -> allowed b n -> is_ok (ft_call (buhat b) [n]).
Proof.
  intros Hb Hn. destruct (buhat_shape compute b Hb) as (q & ms & Hq & Eq & Hg & Ho & Hl & _).
  assert (Hq' : q = ft_of (stat_freq b)). { unfold stat_freq. destruct (even_odd_inv _ _ Hq) as [[-> ->]|[-> ->]]; reflexivity. }
  assert (Hns : (0 < gnseg (fgeom (buhat b)))%nat) by apply Hg.
  eexists. apply ft_call_ok; auto. constructor; [|constructor]. rewrite Eq, Hq'. apply freq_ok_of. exact Hn.
Qed.

(** MatsubaraSampling(basis), whatever the default points are. *)
Lemma mats_default_ok grid svd b (po : bool) out : built compute b -> search_grid grid ->
  ends_with (fun fuel => basis_matsubara fuel grid b None po) out ->
  match out with
  | Raise e => ends_with (fun fuel => mats_default fuel grid svd b po) (Raise e)
  | Ok (wn, w) =>
      Forall (allowed b) wn /\ (po = true -> Forall (fun n => 0 <= n)%Z wn) /\ (po = false -> symmetric wn) /\
      (po = true -> wn = [] -> ends_with (fun fuel => mats_default fuel grid svd b po) (Raise IndexError)) /\
      (po = false \/ wn <> [] /\ (forall A, svd_shapes A (svd A)) ->
       exists s, ends_with (fun fuel => mats_default fuel grid svd b po) (Ok (s, w)) /\ ms_points s = wn /\ ms_positive s = po /\
        matsubara_sampling svd (sb_of_basis b) wn po = Ok s /\
        (StronglySorted Z.le wn -> matsubara_sampling_at svd (sb_of_basis b) (IntArr wn) po = Ok s))
  end.
Proof.
  intros Hb Hg Hr. destruct out as [[wn w]|e].
  2:{ exact (mats_raise svd _ _ po e Hr). }
  destruct (default_allowed grid b _ po wn w Hb Hg Hr) as (P1 & P2 & P3). split; [exact P1|]. split; [exact P2|]. split; [exact P3|].
  destruct (mats_from svd (sb_of_basis b) _ _ wn w po (uhat_pointwise compute b Hb) Hr) as [M1 M2].
  { intros n Hn. rewrite Forall_forall in P1. exact (uhat_ok_at b n Hb (P1 n Hn)). }
  split; [exact M1|]. intros Hc. destruct (M2 Hc) as (s & S1 & S2 & S3 & S4 & S5). exists s. auto 8.
Qed.

Lemma even_allowed b n : bstat b <> "F"%string -> allowed b n -> Z.even n = true.
Proof.
  intros Hb. unfold allowed, stat_freq. destruct (string_dec (bstat b) "F"); [congruence|]. rewrite Zmod_even. destruct (Z.even n); auto. discriminate.
Qed.

Lemma odd_allowed b n : bstat b = "F"%string -> allowed b n -> Z.even n = false.
Proof.
  intros Hb. unfold allowed, stat_freq. destruct (string_dec (bstat b) "F"); [|congruence]. rewrite Zmod_even. destruct (Z.even n); auto. discriminate.
Qed.

Lemma mats_default_aug_ok grid svd a (po : bool) wn w : built compute (abasis a) -> search_grid grid ->
  ends_with (fun fuel => basis_matsubara fuel grid (abasis a) (Some (augsize a)) po) (Ok (wn, w)) ->
  (bstat (abasis a) <> "F"%string \/ (forall f, In f (aaugs a) -> ~ tau_aug f)) ->
  po = false \/ wn <> [] /\ (forall A, svd_shapes A (svd A)) ->
  exists s, ends_with (fun fuel => mats_default_aug fuel grid svd a po) (Ok (s, w)) /\ ms_points s = wn /\ ms_positive s = po /\
    matsubara_sampling svd (sb_of_aug true a) wn po = Ok s /\
    (StronglySorted Z.le wn -> matsubara_sampling_at svd (sb_of_aug true a) (IntArr wn) po = Ok s).
Proof.
  intros Hb Hg Hr Hst Hc. destruct (default_allowed grid _ _ po wn w Hb Hg Hr) as (P1 & P2 & P3).
  destruct (mats_from svd (sb_of_aug true a) _ _ wn w po (auguhat_pointwise compute a Hb) Hr) as [_ M2].
  { intros n Hn. rewrite Forall_forall in P1. specialize (P1 n Hn). destruct (uhat_ok_at _ n Hb P1) as [B EB].
    cbn [sb_of_aug sb_uhat]. unfold auguhat_call. rewrite EB. cbn [bind].
    assert (HA : is_ok (collect (map (fun f => aug_hat true f false (IntArr [n])) (aaugs a)))).
    { destruct a as [b augs]. cbn [abasis aaugs] in *. clear - Hst P1. induction augs as [|f augs IH]; [eexists; reflexivity|].
      destruct IH as [Q EQ]; [destruct Hst as [|Hst]; [left; auto|right; intros g Ig; apply Hst; right; auto]|].
      cbn [map collect]. rewrite EQ.
      assert (HF : is_ok (aug_hat true f false (IntArr [n]))).
      { destruct Hst as [Hst|Hst].
        - rewrite aug_hat_ok by (constructor; [apply (even_allowed b n Hst P1)|constructor]). destruct f; eexists; reflexivity.
        - specialize (Hst f (or_introl eq_refl)). destruct f as [?|?|?]; try (exfalso; apply Hst; exact I). eexists. apply aug_hat_const. }
      destruct HF as [v ->]. cbn [bind]. eexists. reflexivity. }
    destruct HA as [Q ->]. cbn [bind]. eexists. reflexivity. }
  destruct (M2 Hc) as (s & S1 & S2 & S3 & S4 & S5). exists s. auto 8.
Qed.

(** Constants and linear functions in time have no values at fermionic frequencies. *)
Lemma mats_default_aug_fermi grid svd a (po : bool) wn w : built compute (abasis a) -> search_grid grid ->
  ends_with (fun fuel => basis_matsubara fuel grid (abasis a) (Some (augsize a)) po) (Ok (wn, w)) ->
  bstat (abasis a) = "F"%string -> (exists f, In f (aaugs a) /\ tau_aug f) -> wn <> [] ->
  ends_with (fun fuel => mats_default_aug fuel grid svd a po) (Raise ValueError).
Proof.
  intros Hb Hg Hr Hst (f & If & Tf) Hne. destruct (default_allowed grid _ _ po wn w Hb Hg Hr) as (P1 & P2 & P3).
  revert Hr. apply ends_map. intros fuel E. unfold mats_default_aug, mats_of_points, aug_matsubara. rewrite E. cbn [after].
  unfold matsubara_sampling. cbn [sb_of_aug sb_uhat]. unfold auguhat_call.
  assert (HB : is_ok (ft_call (buhat (abasis a)) wn)).
  { apply (proj1 (uhat_pointwise compute _ Hb wn)). intros n Hn. rewrite Forall_forall in P1. exact (uhat_ok_at _ n Hb (P1 n Hn)). }
  destruct HB as [B ->]. cbn [bind].
  assert (Hno : ~ Forall (fun k => Z.even k = true) wn).
  { destruct wn as [|n wn]; [congruence|]. intros F. inversion F; subst. inversion P1; subst.
    pose proof (odd_allowed _ n Hst ltac:(assumption)). congruence. }
  rewrite (collect_raise _ ValueError); [reflexivity| |].
  - intros r Hir. apply in_map_iff in Hir as (g & <- & _). destruct g as [?|?|?].
    + exists []. right. apply aug_hat_odd; [exact I|exact Hno].
    + exists []. right. apply aug_hat_odd; [exact I|exact Hno].
    + eexists. left. apply aug_hat_const.
  - exists (aug_hat true f false (IntArr wn)). split; [apply in_map_iff; eauto|]. apply aug_hat_odd; auto.
Qed.

(** The functions of a DLR basis have values at all frequencies but zero, and
    there too if no pole is zero. *)
Lemma pole_ok fermi beta v n : 0 < beta -> (v <> 0 \/ n <> 0%Z) -> pole_value fermi beta v (IZR n) <> None.
Proof.
  intros Hb H. unfold pole_value. destruct (Ceq_dec _ _) as [E|]; [|discriminate]. exfalso.
  unfold Cminus, Cplus, Copp, RtoC in E. cbn [fst snd] in E. injection E as E1 E2.
  destruct H as [H|H]; [lra|]. apply H. apply eq_IZR. pose proof PI_RGT_0 as Hp.
  assert (E3 : IZR n * PI / beta = 0) by lra. apply Rmult_eq_reg_r with (PI / beta).
  - rewrite Rmult_0_l, <- E3. unfold Rdiv. ring.
  - apply Rgt_not_eq. apply Rdiv_lt_0_compat; auto.
Qed.

Lemma pole_nan fermi beta : pole_value fermi beta 0 (IZR 0) = None.
Proof.
  unfold pole_value. destruct (Ceq_dec _ _) as [E|E]; auto. exfalso. apply E.
  unfold Cminus, Cplus, Copp, RtoC. cbn [fst snd]. f_equal; [ring|unfold Rdiv; ring].
Qed.

Lemma no_nan_ok {P} (g : P -> option C) ps : Forall (fun p => g p <> None) ps -> is_ok (no_nan (map g ps)).
Proof. intros H. eexists. apply no_nan_row. split; [exact H|reflexivity]. Qed.

Lemma mats_default_dlr_ok grid svd svd' f d (po : bool) wn w : built compute (dl_basis d) -> dlr_built svd' d -> search_grid grid ->
  ends_with (fun fuel => basis_matsubara fuel grid (dl_basis d) None po) (Ok (wn, w)) ->
  (~ In 0 (dl_poles d) \/ ~ In 0%Z wn) ->
  po = false \/ wn <> [] /\ (forall A, svd_shapes A (svd A)) ->
  exists s, ends_with (fun fuel => mats_default_dlr fuel grid svd f d po) (Ok (s, w)) /\ ms_points s = wn /\ ms_positive s = po /\
    matsubara_sampling svd (sb_of_dlr f d) wn po = Ok s /\
    (StronglySorted Z.le wn -> matsubara_sampling_at svd (sb_of_dlr f d) (IntArr wn) po = Ok s).
Proof.
  intros Hb Hd Hg Hr Hz Hc. destruct (default_allowed grid _ _ po wn w Hb Hg Hr) as (P1 & P2 & P3).
  pose proof (beta_pos compute _ Hb) as Pb.
  destruct (dlr_inv compute svd' _ _ d Hb Hd) as (m & F & _ & _ & Eu & Hm & Eh & _).
  destruct (mats_from svd (sb_of_dlr f d) _ _ wn w po (dlruhat_pointwise f d) Hr) as [_ M2].
  { intros n Hn. cbn [sb_of_dlr sb_uhat]. rewrite Eh. unfold matspoles_call. cbn [bind mp_stat mp_beta mp_poles].
    assert (HA : forall l, (forall v, In v l -> v <> 0 \/ n <> 0%Z) -> is_ok (collect (map no_nan
       (map (fun v => map (pole_value (bstat (dl_basis d) =? "F")%string (bbeta (dl_basis d)) v) (map IZR [n])) l)))).
    { induction l as [|v l IH]; intros Hl; [eexists; reflexivity|]. destruct IH as [Q EQ]; [intros u Iu; apply Hl; right; auto|].
      cbn [map collect]. cbn [map] in EQ. rewrite EQ.
      destruct (pole_value _ _ v (IZR n)) as [z|] eqn:E; [|exfalso; exact (pole_ok _ _ v n Pb (Hl v (or_introl eq_refl)) E)].
      cbn [no_nan bind]. eexists. reflexivity. }
    apply HA. intros v Iv. destruct Hz as [Hz|Hz].
    - left. intros ->. auto.
    - right. intros ->. auto. }
  destruct (M2 Hc) as (s & S1 & S2 & S3 & S4 & S5). exists s. auto 8.
Qed.

Lemma mats_default_dlr_nan grid svd svd' f d (po : bool) wn w : built compute (dl_basis d) -> dlr_built svd' d ->
  ends_with (fun fuel => basis_matsubara fuel grid (dl_basis d) None po) (Ok (wn, w)) ->
  In 0 (dl_poles d) -> In 0%Z wn ->
  ends_with (fun fuel => mats_default_dlr fuel grid svd f d po) (Raise ValueError).
Proof.
  intros Hb Hd Hr Ip Iw. destruct (dlr_inv compute svd' _ _ d Hb Hd) as (m & F & _ & _ & Eu & Hm & Eh & _).
  revert Hr. apply ends_map. intros fuel E. unfold mats_default_dlr, mats_of_points, dlr_matsubara. rewrite E. cbn [after].
  unfold matsubara_sampling. cbn [sb_of_dlr sb_uhat]. rewrite Eh. unfold matspoles_call. cbn [bind mp_stat mp_beta mp_poles].
  assert (NC : forall l : list (option C), exists v, no_nan l = Ok v \/ no_nan l = Raise ValueError).
  { induction l as [|[z|] l (v & IH)]; [exists []; auto| |exists []; auto]. cbn [no_nan]. destruct IH as [-> | ->]; cbn [bind]; [eexists; left; reflexivity|exists []; auto]. }
  assert (NN : forall l : list (option C), In None l -> no_nan l = Raise ValueError).
  { induction l as [|[z|] l IH]; intros Hi; [destruct Hi| |reflexivity]. destruct Hi as [Hi|Hi]; [discriminate|]. cbn [no_nan]. rewrite (IH Hi). reflexivity. }
  rewrite (collect_raise _ ValueError); [reflexivity| |].
  - intros r Hi. apply in_map_iff in Hi as (l & <- & _). apply NC.
  - exists (no_nan (map (pole_value (bstat (dl_basis d) =? "F")%string (bbeta (dl_basis d)) 0) (map IZR wn))). split.
    + apply in_map. apply in_map_iff. exists 0. auto.
    + apply NN. rewrite <- (pole_nan (bstat (dl_basis d) =? "F")%string (bbeta (dl_basis d))). apply in_map, in_map, Iw.
Qed.
End Freqs.
