(** Default sampling frequencies without rounding. *)
From Coq Require Import Reals ZArith Arith Bool Lra Lia String FunctionalExtensionality.
From Coquelicot Require Import Coquelicot.
From Coq Require Import List Sorting.Sorted.
From Verif.Model Require Import Base Util IEEE Num Roots Matsubara Poly FT FTIEEE SVE Basis NDArray Sampling Defaults DefaultsIEEE TransformIEEE MatsubaraIEEE.
From Verif.Spec Require Import SRoots SMatsubara SPoly SFT SSVE SBasis SSampling SDefaults SFTIEEE SMatsubaraIEEE.
From Verif.Proofs Require Import BaseFacts FTCall FTProps BasisInit BasisProps BasisPhys AdapterProps DefaultsFacts DefaultsProps FTRoundProps MatsRound MatsRoundProps.
Import ListNotations.
Open Scope R_scope.
Notation length := List.length.

Definition plainly (g : Z -> R) : sampled := fun ns => map (fun n => (g n, false)) ns.

Lemma call_rd_model rd F m m' f ns : (length (fcols f) <= 1)%nat -> (forall n, m 0%nat n = m' 0%nat n) -> ft_call_rd rd F m f ns = ft_call_rd rd F m' f ns.
Proof.
  intros Hl Hm. unfold ft_call_rd. destruct (check_reduced_matsubara _ _) as [ms|]; [|reflexivity]. cbn [bind].
  destruct (unl_inner_rd _ _ _ _ _) as [inner|] eqn:E; [|reflexivity]. cbn [bind]. f_equal.
  assert (Li : (length inner <= 1)%nat).
  { unfold unl_inner_rd in E. cbv zeta in E. destruct (_ || _); [discriminate|]. destruct (negb _); [discriminate|]. injection E as <-.
    rewrite map_length, combine_length, seq_length. lia. }
  destruct inner as [|row [|? ?]]; [reflexivity| |cbn in Li; lia]. cbn [length seq combine map fst snd]. f_equal. apply map_ext. intros nv. rewrite Hm. reflexivity.
Qed.

Lemma searched_exact model p c : (0 < gorder (fgeom p))%nat -> (0 < gnseg (fgeom p))%nat -> glen (fgeom p) = gorder (fgeom p) -> fcols p = [c] ->
  (forall n, model n = giw (ft_moments p 0) n) ->
  searched_rd (fun x => x) exact_library model (fun _ _ => false) p = (do g <- searched p; Ok (plainly g)).
Proof.
  intros Ho Hs Hl Hc Hm. unfold searched_rd, searched. rewrite Hc.
  assert (Hcall : forall ns, ft_call_rd (fun x => x) exact_library (fun _ => model) p ns = ft_call p ns).
  { intros ns. rewrite <- call_exact. apply call_rd_model; [rewrite Hc; cbn; lia|exact Hm]. }
  destruct (search_freq (ffreq p)) as [q|] eqn:Eq; [|reflexivity]. cbn [bind]. destruct (func_part _ _) as [part|]; [|reflexivity]. cbn [bind].
  rewrite Hcall. destruct (ft_call p [zeta q]) as [M0|]; [|reflexivity]. cbn [bind]. apply (f_equal (fun h => Ok h)). apply functional_extensionality. intros ns. unfold plainly.
  rewrite Hcall.
  assert (Hf : forall n, freq_ok (ffreq p) (2 * n + zeta q)%Z).
  { intros n. unfold search_freq in Eq. destruct (ffreq p); [discriminate| |]; injection Eq as <-; [apply (proj2 (freq_ok_of Even _))|apply (proj2 (freq_ok_of Odd _))];
      rewrite Z.add_comm, Z.mul_comm, Z_mod_plus_full; reflexivity. }
  assert (Hall : forall l, Forall (freq_ok (ffreq p)) (map (fun n => 2 * n + zeta q)%Z l)) by (intros l; apply Forall_map, Forall_forall; auto).
  rewrite (ft_call_ok p _ Ho Hs Hl (Hall ns)). unfold ft_rows. rewrite Hc. cbn [length seq combine map fst snd].
  rewrite !map_length.
  transitivity (map (fun n => (match part with RealPart => Re (ft_value p 0 c (2 * n + zeta q)) | ImagPart => Im (ft_value p 0 c (2 * n + zeta q)) end, false)) ns).
  - generalize 0%nat at 1. induction ns as [|n ns IH]; intros s; [reflexivity|]. cbn [length seq map combine fst snd]. f_equal. apply IH.
  - apply map_ext. intros n. rewrite (ft_call_ok p [2 * n + zeta q]%Z Ho Hs Hl (Hall [n])). unfold ft_rows. rewrite Hc. reflexivity.
Qed.

Section Full.
Variable compute : kern -> option R -> res sve_result.
Variable b : basis.
Hypothesis Hb : built compute b.
Let F := buhat_full b.
Let q := stat_freq b.
Let N := length (ss (bsve b)).

Lemma item_shape z k : (k < N)%nat -> (forall B (m : list B), length m = N -> pyindex m z = nth_error m k) ->
  ft_item F z = ft_item F (Z.of_nat k) /\
  exists p c, ft_item F z = Ok p /\ fcols p = [c] /\ (0 < gorder (fgeom p))%nat /\ (0 < gnseg (fgeom p))%nat /\ glen (fgeom p) = gorder (fgeom p).
Proof.
  intros Hk Hpy. destruct (full_facts compute b Hb) as (lam & _ & Hf). destruct (full_shape compute b Hb) as (HQ & HK & HN & (Wg & Og & Lg) & HC). fold F q N in HQ, HK, HN, HC.
  pose proof (ft_init_val _ _ _ _ _ Hf) as (G & _ & _ & X1 & X2 & A & Mo & Pm). fold F in G, A, Mo, Pm.
  assert (exists ms, fmodel F = Some ms /\ length ms = N) as (ms & Em & Lm).
  { specialize (Pm ltac:(discriminate) eq_refl). fold q in Mo, Pm. destruct (power_model (ft_of q) (full_u (bsve b) (bbeta b))) as [ms|] eqn:E; [|destruct Pm as (? & ?); discriminate].
    exists ms. split; [exact Mo|]. unfold power_model in E. destruct (derivs _ _) as [d|]; [|discriminate]. cbn [bind] in E.
    destruct (statsign _) as [s|]; [|discriminate]. cbn [bind] in E. injection E as <-. rewrite map_length, seq_length. transitivity (length (fcols F)); [rewrite HC; reflexivity|exact HK]. }
  destruct (nth_error (fcols F) k) as [c|] eqn:Ec; [|apply nth_error_None in Ec; lia].
  destruct (nth_error ms k) as [m|] eqn:Ek; [|apply nth_error_None in Ek; lia].
  assert (I : forall z', (forall B (m : list B), length m = N -> pyindex m z' = nth_error m k) -> ft_item F z' = ft_init (VPoly (fgeom F) [c]) (ffreq F) (asymp_of (fasymp F)) (Some [m])).
  { intros z' H. unfold ft_item. rewrite (H _ _ HK), Ec, Em, (H _ _ Lm), Ek. reflexivity. }
  rewrite (I z Hpy), (I (Z.of_nat k) (nat_index b k Hk)). split; [reflexivity|].
  destruct (ft_init (VPoly (fgeom F) [c]) (ffreq F) (asymp_of (fasymp F)) (Some [m])) as [p|e] eqn:Ep.
  - exists p, c. apply ft_init_val in Ep as (G' & K' & _). cbn [vgeom vcols] in G', K'. rewrite G', G. split; [reflexivity|]. split; [exact K'|]. split; [exact Og|]. split; [|exact Lg].
    apply Wg.
  - exfalso. destruct (item_facts compute b Hb z k c) as (p & E & _); fold F; try (rewrite Hpy by exact HK); auto. fold F in E. pose proof (eq_trans (eq_sym (I z Hpy)) E) as E'.
    discriminate.
Qed.

Lemma exact_rd model fuel grid L po :
  (forall p n, ft_item F (if (l_requested q L <? N)%nat then Z.of_nat (l_requested q L) else (-1)%Z) = Ok p -> model n = giw (ft_moments p 0) n) ->
  basis_matsubara_rd (fun x => x) exact_library model (fun _ _ => false) fuel grid b (Some L) po = basis_matsubara fuel grid b (Some L) po.
Proof.
  intros Hm. unfold basis_matsubara_rd, basis_matsubara, uhat_default_rd, uhat_default. fold F.
  destruct (full_shape compute b Hb) as (HQ & HK & HN & _). fold F q N in HQ, HK, HN. rewrite HQ.
  replace (search_freq (ft_of q)) with (Ok q : res freq) by (destruct q; reflexivity). cbn [after]. rewrite HK. cbv zeta.
  set (lr := l_requested q L) in *. set (z := if (lr <? N)%nat then Z.of_nat lr else (-1)%Z) in *.
  set (k := if (lr <? N)%nat then lr else (N - 1)%nat).
  assert (Hk : (k < N)%nat). { unfold k. destruct (lr <? N)%nat eqn:E; [apply Nat.ltb_lt in E; exact E|lia]. }
  assert (Hpy : forall B (m : list B), length m = N -> pyindex m z = nth_error m k).
  { unfold z, k. destruct (lr <? N)%nat eqn:E; [apply Nat.ltb_lt in E; apply (nat_index b lr E)|apply (last_index b HN)]. }
  destruct (item_shape z k Hk Hpy) as (Ez & p & c & Ep & Cp & O1 & O2 & O3).
  unfold searched_item at 1. rewrite Ep. cbn [bind].
  rewrite (searched_exact model p c O1 O2 O3 Cp (fun n => Hm p n Ep)).
  destruct (searched p) as [g|e] eqn:Eg; cbn [bind after]; [|reflexivity].
  assert (Es : searched_item F (Z.of_nat k) = Ok g) by (unfold searched_item; rewrite <- Ez, Ep; exact Eg).
  set (uhat := map _ (seq 0 N)).
  assert (Hu : nth_error uhat k = Some g) by (apply (nth_total b k g Hk Es)).
  unfold default_matsubara. fold lr. cbv zeta.
  destruct (lr <? N)%nat eqn:E; unfold k in Hu.
  - rewrite Hu. unfold sign_changes_rd, ft_sign_changes. unfold plainly. rewrite find_all_exact.
    destruct (find_all_discr _ _ _ _ _) as [x0|]; [|reflexivity]. cbn [after]. destruct (finish q po x0) as [wn|]; reflexivity.
  - apply Nat.ltb_ge in E. assert (Lu : length uhat = N) by (unfold uhat; rewrite map_length, seq_length; reflexivity).
    replace (nth_error uhat lr) with (@None (Z -> R)) by (symmetry; apply nth_error_None; lia).
    assert (Er : exists t, rev uhat = g :: t).
    { destruct (rev uhat) as [|h t] eqn:Er; [apply (f_equal (@length _)) in Er; rewrite rev_length in Er; cbn in Er; lia|].
      exists t. f_equal. apply (f_equal (@rev _)) in Er. rewrite rev_involutive in Er. cbn [rev] in Er. rewrite Er in Hu.
      rewrite nth_error_app2 in Hu by (apply (f_equal (@length _)) in Er; rewrite app_length in Er; cbn in Er; lia).
      replace (N - 1 - length (rev t))%nat with 0%nat in Hu by (apply (f_equal (@length _)) in Er; rewrite app_length in Er; cbn in Er; lia).
      cbn in Hu. congruence. }
    destruct Er as (t & ->). unfold extrema_rd, ft_extrema, plainly. rewrite extrema_exact.
    destruct (discrete_extrema _ _ _) as [[x0|]|]; cbn [after bind]; try reflexivity.
    destruct (finish q po x0) as [wn|]; cbn [after bind]; [|reflexivity]. destruct wn; reflexivity.
Qed.
End Full.
