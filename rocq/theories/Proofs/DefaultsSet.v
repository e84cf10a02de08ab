(** Basis sets. *)
From Coq Require Import String ZArith Arith Bool Reals Lia Lra.
From Coquelicot Require Import Coquelicot.
From Coq Require Import List Sorting.Sorted.
From Verif.Model Require Import Base Util Num Roots Matsubara Poly FT SVE Basis Kernel Augment NDArray Sampling DLR Defaults.
From Verif.Spec Require Import SUtil SRoots SMatsubara SGauss SPoly SFT SSVE SBasis SKernel SAugment SSampling SDLR SDefaults.
From Verif.Proofs Require Import BaseFacts DefaultMatsubara BasisInit BasisProps BasisOps SVEFacts SVEPolicy PPolyFacts PPolyExamples FTFacts FTProps DLRProps SamplingFacts SamplingProps SamplingClaims PointsFacts DefaultsFacts DefaultsProps DefaultsSampling.
Import ListNotations.
Open Scope R_scope.
Notation length := List.length.

Lemma ends_after {A B} (run : nat -> option (res A)) (k : nat -> A -> option (res B)) out r :
  ends_with run out ->
  match out with Raise e => r = Raise e | Ok a => ends_with (fun fuel => k fuel a) r end ->
  ends_with (fun fuel => after (run fuel) (k fuel)) r.
Proof.
  intros (n & Hn). destruct out as [a|e].
  - intros (m & Hm). exists (Nat.max n m). intros fuel Hf. rewrite Hn by lia. cbn [after]. apply Hm. lia.
  - intros ->. exists n. intros fuel Hf. rewrite Hn by lia. reflexivity.
Qed.

Lemma ends_const {A} (r : A) : ends_with (fun _ => Some r) r.
Proof. exists O. auto. Qed.

Section Set_.
Variable compute : kern -> option R -> res sve_result.

Lemma pair_built beta wmax eps sve f b : 0 < wmax -> finite_temp_bases compute beta wmax eps sve = Ok (f, b) ->
  sve_ok (bsve f) -> built compute f /\ built compute b.
Proof.
  intros Hw H Hok. pose proof (pair_shares compute _ _ _ _ _ _ Hw H Hok) as ((_ & _ & _ & _ & Hs & _) & _).
  unfold finite_temp_bases in H.
  destruct (match sve with Some r => Ok r | None => compute (logistic (beta * wmax)) eps end) as [r|] eqn:Er; [|discriminate].
  cbn [bind] in H.
  destruct (basis_init compute "F" beta wmax eps None None (Some r)) as [f0|] eqn:Ef; [|discriminate]. cbn [bind] in H.
  destruct (basis_init compute "B" beta wmax eps None None (Some r)) as [b0|] eqn:Eb; [|discriminate]. cbn [bind] in H.
  injection H as -> ->. split; [exists "F"%string|exists "B"%string]; exists beta, wmax, eps, None, None, (Some r); split; auto.
  split; auto. rewrite <- Hs. exact Hok.
Qed.

(** What a basis set holds. *)
Lemma set_holds svd grid beta wmax eps sve f b outf outb : 0 < wmax ->
  finite_temp_bases compute beta wmax eps sve = Ok (f, b) -> sve_ok (bsve f) -> search_grid grid ->
  tau_points_exist f (bsize f) ->
  ends_with (fun fuel => basis_matsubara fuel grid f None false) outf ->
  ends_with (fun fuel => basis_matsubara fuel grid b None false) outb ->
  match outf, outb with
  | Raise e, _ | _, Raise e =>
      ends_with (fun fuel => basis_set_init compute svd (fun x => x) fuel grid beta wmax eps sve) (Raise e)
  | Ok (wnf, _), Ok (wnb, _) =>
      exists s, ends_with (fun fuel => basis_set_init compute svd (fun x => x) fuel grid beta wmax eps sve) (Ok s) /\
        set_basis_f s = f /\ set_basis_b s = b /\
        set_beta s = beta /\ set_wmax s = wmax /\ set_lambda s = beta * wmax /\ set_accuracy s = bacc f /\ set_accuracy s = bacc b /\
        set_sve s = bsve f /\ set_sve s = bsve b /\
        good_times beta (set_tau s) /\ ts_points (set_tau_b s) = set_tau s /\
        tau_sampling svd (sb_of_basis f) (set_tau s) = Ok (set_tau_f s) /\
        tau_sampling svd (sb_of_basis b) (set_tau s) = Ok (set_tau_b s) /\
        ts_matrix (set_tau_f s) = ts_matrix (set_tau_b s) /\
        set_wn_points_f s = wnf /\ matsubara_sampling svd (sb_of_basis f) wnf false = Ok (set_wn_f s) /\
        set_wn_points_b s = wnb /\ matsubara_sampling svd (sb_of_basis b) wnb false = Ok (set_wn_b s) /\
        Forall (fun n => Z.odd n = true) wnf /\ symmetric wnf /\ Forall (fun n => Z.even n = true) wnb /\ symmetric wnb
  end.
Proof.
  intros Hw HP Hok Hg Ht Hf Hb. pose proof (pair_built _ _ _ _ _ _ Hw HP Hok) as [Bf Bb].
  pose proof (pair_shares compute _ _ _ _ _ _ Hw HP Hok) as ((Sf & Sb & Eb & Ew & Es & Eu & Ess & Ev & Ea & _ & _ & Dt) & Hbeta & Hwmax & _).
  assert (Ht' : tau_points_exist b (bsize b)).
  { unfold tau_points_exist in *. rewrite <- Es. replace (bsize b) with (bsize f) by (unfold bsize; congruence). exact Ht. }
  destruct (tau_default_ok compute svd f Bf Ht) as (tf & wtf & T1 & T2 & T3 & T4 & T5 & T6).
  destruct (tau_default_ok compute svd b Bb Ht') as (tb & wtb & U1 & U2 & U3 & U4 & U5 & U6).
  pose proof (mats_default_ok compute grid svd f false outf Bf Hg Hf) as Mf.
  pose proof (mats_default_ok compute grid svd b false outb Bb Hg Hb) as Mb.
  assert (Pre : forall r, 
    ends_with (fun fuel => after (mats_default fuel grid svd f false) (fun wf => after (mats_default fuel grid svd b false) (fun wb =>
       Some (Ok (BSet f b tf tb (fst wf) (fst wb)))))) r ->
    ends_with (fun fuel => basis_set_init compute svd (fun x => x) fuel grid beta wmax eps sve) r).
  { intros r Hr. unfold basis_set_init. rewrite basis_set_pair, HP. cbn [after].
    apply (ends_after _ _ _ _ T1). cbv beta iota. apply (ends_after _ _ _ _ U1). cbv beta iota. exact Hr. }
  destruct outf as [[wnf wf]|e].
  2:{ apply Pre. apply (ends_after _ _ _ _ Mf). reflexivity. }
  destruct Mf as (A1 & _ & A3 & _ & A4). destruct (A4 (or_introl eq_refl)) as (sf & F1 & F2 & F3 & F4 & _).
  destruct outb as [[wnb wb]|e].
  2:{ apply Pre. apply (ends_after _ _ _ _ F1). apply (ends_after _ _ _ _ Mb). reflexivity. }
  destruct Mb as (B1 & _ & B3 & _ & B4). destruct (B4 (or_introl eq_refl)) as (sb & G1 & G2 & G3 & G4 & _).
  exists (BSet f b tf tb sf sb). split.
  { apply Pre. apply (ends_after _ _ _ _ F1). apply (ends_after _ _ _ _ G1). apply ends_const. }
  assert (Et : ts_points tb = ts_points tf).
  { assert (E : Ok (ts_points tb, wtb) = (Ok (ts_points tf, wtf) : res (list R * bool))); [|congruence].
    apply (ends_unique (fun fuel => default_tau (fun x => x) fuel b None)); auto.
    destruct T2 as (n & Hn). exists n. intros fuel Hfu. rewrite <- (proj1 (Dt _ fuel None)). now apply Hn. }
  rewrite Et in U3. unfold set_beta, set_wmax, set_lambda, set_accuracy, set_sve, set_tau, set_wn_points_f, set_wn_points_b.
  cbn [set_basis_f set_basis_b set_tau_f set_tau_b set_wn_f set_wn_b]. rewrite Hbeta, Hwmax. rewrite Hbeta in T5.
  split; [reflexivity|]. split; [reflexivity|]. split; [reflexivity|]. split; [reflexivity|]. split; [reflexivity|].
  split; [reflexivity|]. split; [exact Ea|]. split; [reflexivity|]. split; [exact Es|]. split; [exact T5|]. split; [exact Et|].
  split; [exact T3|]. split; [exact U3|]. split.
  { unfold tau_sampling in T3, U3. cbn [sb_of_basis sb_u] in T3, U3. rewrite <- Eu in U3.
    destruct (do Y <- vcall_arr (bu f) (ts_points tf); Ok (map (map RtoC) Y)) as [M|]; [|discriminate]. cbn [bind] in T3, U3.
    rewrite decomposed_none in T3, U3. cbn [bind] in T3, U3. injection T3 as <-. injection U3 as <-. reflexivity. }
  split; [exact F2|]. split; [exact F4|]. split; [exact G2|]. split; [exact G4|].
  split. { eapply Forall_impl; [|exact A1]. intros n Hn. rewrite <- Z.negb_even. now rewrite (odd_allowed f n Sf Hn). }
  split; [auto|]. split; [|auto].
  eapply Forall_impl; [|exact B1]. intros n Hn. apply (even_allowed b n); [rewrite Sb; discriminate|exact Hn].
Qed.

(** Errors in making the pair. *)
Lemma set_raises svd rnd grid beta wmax eps sve e : finite_temp_bases compute beta wmax eps sve = Raise e ->
  forall fuel, basis_set_init compute svd rnd fuel grid beta wmax eps sve = Some (Raise e).
Proof. intros H fuel. unfold basis_set_init. rewrite basis_set_pair, H. reflexivity. Qed.

(** A set exists when the expansion has functions to spare. *)
Lemma set_exists svd grid beta wmax eps sve f b : 0 < wmax ->
  finite_temp_bases compute beta wmax eps sve = Ok (f, b) -> sve_ok (bsve f) -> search_grid grid ->
  tau_points_exist f (bsize f) ->
  (forall l, (bsize f <= l <= bsize f + 1)%nat -> (l < length (ss (bsve f)))%nat /\ definite (bsve f) l) ->
  exists s, ends_with (fun fuel => basis_set_init compute svd (fun x => x) fuel grid beta wmax eps sve) (Ok s) /\
    StronglySorted Z.lt (set_wn_points_f s) /\ StronglySorted Z.lt (set_wn_points_b s).
Proof.
  intros Hw HP Hok Hg Ht Hd. pose proof (pair_built _ _ _ _ _ _ Hw HP Hok) as [Bf Bb].
  pose proof (pair_shares compute _ _ _ _ _ _ Hw HP Hok) as ((Sf & Sb & Eb & Ew & Es & Eu & Ess & Ev & Ea & _) & _).
  assert (Hr : forall q L, (L <= l_requested q L <= L + 1)%nat).
  { intros q L. unfold l_requested. destruct q; [destruct (Nat.even L)|destruct (Nat.odd L)]; lia. }
  assert (Esz : bsize b = bsize f) by (unfold bsize; congruence).
  destruct (Hd _ (Hr (stat_freq f) (bsize f))) as [F1 F2].
  destruct (Hd (l_requested (stat_freq b) (bsize b))) as [B1 B2]; [rewrite Esz; apply Hr|].
  rewrite Es in B1, B2.
  destruct (matsubara_spare compute f Bf grid (bsize f) false Hg F1 F2) as (wnf & P1 & _ & _ & _ & P2 & _).
  destruct (matsubara_spare compute b Bb grid (bsize b) false Hg B1 B2) as (wnb & Q1 & _ & _ & _ & Q2 & _).
  destruct (set_holds svd grid beta wmax eps sve f b _ _ Hw HP Hok Hg Ht P1 Q1) as (s & S1 & S).
  exists s. split; [exact S1|]. destruct S as (_ & _ & _ & _ & _ & _ & _ & _ & _ & _ & _ & _ & _ & _ & -> & _ & -> & _). auto.
Qed.
End Set_.

(** * Examples *)
Definition ex_poly3 : vpoly := VPoly unit_geom [square_col; line_col; square_col].
Definition ex_sve3 : sve_result := SVE ex_poly3 [1; 1 / 2; 1 / 4] ex_poly3 (Some (9 / 10)).
Lemma ex_sve3_ok : sve_ok ex_sve3.
Proof.
  assert (fresh ex_poly3) by (split; [exact unit_geom_ok|split; [simpl; lia|reflexivity]]). unfold sve_ok, ex_sve3. cbn [su sv ss].
  repeat match goal with |- _ /\ _ => split end; auto; try reflexivity; try discriminate.
  - repeat constructor; lra.
  - repeat constructor; lra.
Qed.
Lemma ex3_definite : forall l, (l < 3)%nat -> definite ex_sve3 l.
Proof.
  intros l Hl c Hc. cbn [ex_sve3 su ex_poly3 vcols vgeom] in *. destruct l as [|[|[|l]]]; [| | |lia]; cbn [nth_error] in Hc; injection Hc as <-.
  - split; [reflexivity|apply square_has_parity].
  - split; [cbn; ring|apply line_has_parity].
  - split; [cbn; ring|]. replace ((-1) ^ 2) with ((-1) ^ 0) by (cbn; ring). apply square_has_parity.
Qed.
Lemma ex3_size : nabove (9 / 10) (ss ex_sve3) = 1%nat.
Proof.
  unfold nabove. cbn [ex_sve3 ss nth filter].
  rewrite (proj2 (Rleb_true (9 / 10 * 1) 1)), (proj2 (Rleb_false (9 / 10 * 1) (1 / 2))), (proj2 (Rleb_false (9 / 10 * 1) (1 / 4))) by lra. reflexivity.
Qed.
Lemma ex3_times b : bsve b = ex_sve3 -> bsize b = 1%nat -> tau_points_exist b (bsize b).
Proof.
  intros Hr Hs. exists (SPoly unit_geom line_col). rewrite Hr, Hs. split; [reflexivity|]. split.
  - split; [simpl; auto|]. simpl. lra.
  - simpl. lia.
Qed.
Lemma ex3_basis st : st = "F"%string \/ st = "B"%string ->
  exists b, built no_compute b /\ bstat b = st /\ bbeta b = 2 /\ bsve b = ex_sve3 /\ bsize b = 1%nat /\ klam (bkernel b) = Some 6.
Proof.
  intros Hst. destruct (init_accepts no_compute st 2 3 None None None ex_sve3 (9 / 10)) as (b & H1 & H2 & H3 & H4 & H5 & H6 & H7 & H8);
    auto; try lra; try reflexivity; [apply ex_sve3_ok|]. exists b. rewrite H8, H7, ex3_size. cbn [logistic klam].
  split; [exact H2|]. split; [exact H3|]. split; [exact H4|]. split; [exact H6|]. split; [reflexivity|]. f_equal.
Qed.
Lemma ex3_pair : exists f b, finite_temp_bases no_compute 2 3 None (Some ex_sve3) = Ok (f, b) /\ bsve f = ex_sve3 /\ bsize f = 1%nat.
Proof.
  destruct (pair_exists no_compute 2 3 None (Some ex_sve3) ex_sve3 (9 / 10)) as (f & b & H & Hr);
    try lra; try reflexivity; [apply ex_sve3_ok|]. exists f, b. split; auto. split; auto.
  unfold finite_temp_bases in H. cbn [bind] in H.
  destruct (init_accepts no_compute "F" 2 3 None None None ex_sve3 (9 / 10)) as (f0 & H1 & _ & _ & _ & _ & _ & _ & H8);
    auto; try lra; try reflexivity; [apply ex_sve3_ok|]. rewrite H1 in H. cbn [bind] in H.
  destruct (basis_init no_compute "B" 2 3 None None None (Some ex_sve3)); [|discriminate]. cbn [bind] in H. injection H as <- _.
  rewrite H8. apply ex3_size.
Qed.

Definition ex_poly4 : vpoly := VPoly unit_geom [square_col; line_col; line_col].
Definition ex_sve4 : sve_result := SVE ex_poly4 [1; 1 / 2; 1 / 4] ex_poly4 (Some (9 / 10)).
Lemma ex_sve4_ok : sve_ok ex_sve4.
Proof.
  assert (fresh ex_poly4) by (split; [exact unit_geom_ok|split; [simpl; lia|reflexivity]]). unfold sve_ok, ex_sve4. cbn [su sv ss].
  repeat match goal with |- _ /\ _ => split end; auto; try reflexivity; try discriminate.
  - repeat constructor; lra.
  - repeat constructor; lra.
Qed.
Lemma ex4_aug : exists a, built no_compute (abasis a) /\ tau_points_exist (abasis a) (augsize a) /\ length (aaugs a) = 1%nat /\
  Forall (fun f => tau_aug f /\ aug_beta f = bbeta (abasis a)) (aaugs a).
Proof.
  destruct (init_accepts no_compute "B" 2 3 None None None ex_sve4 (9 / 10)) as (b & H1 & H2 & H3 & H4 & H5 & H6 & H7 & H8);
    auto; try lra; try reflexivity; [apply ex_sve4_ok|]. replace (nabove (9 / 10) (ss ex_sve4)) with 1%nat in H8 by (symmetry; exact ex3_size).
  exists (AugBasis b [TauConst 2]). unfold augsize, naug. cbn [abasis aaugs]. rewrite H4, H8. split; [exact H2|].
  split; [|split; [reflexivity|constructor; [split; [exact I|reflexivity]|constructor]]].
  exists (SPoly unit_geom line_col). rewrite H6. split; [reflexivity|]. split.
  - split; [simpl; auto|]. simpl. lra.
  - simpl. lia.
Qed.
Lemma ex3_dlr : exists svd d, built no_compute (dl_basis d) /\ dlr_built svd d /\ (exists w, In w (dl_poles d) /\ w <> 0) /\
  tau_points_exist (dl_basis d) (bsize (dl_basis d)).
Proof.
  set (svd := fun A => SVDRes (Mat (mr A) 0 (fun _ _ => RtoC 0)) [] (Mat 0 (mc A) (fun _ _ => RtoC 0))).
  destruct (init_accepts no_compute "F" 2 3 None None None ex_sve3 (9 / 10)) as (b & H1 & H2 & H3 & H4 & H5 & H6 & H7 & H8);
    auto; try lra; try reflexivity; [apply ex_sve3_ok|]. rewrite ex3_size in H8.
  destruct (proj2 (proj1 (dlr_accepts no_compute svd b true [1] H2 ltac:(intros A; repeat split)))) as [d Hd].
  { split; [reflexivity|]. split; [discriminate|]. constructor; [|constructor]. unfold inside_w. rewrite H5. lra. }
  exists svd, d. destruct (dlr_inv no_compute svd b [1] d H2 Hd) as (m & F & E1 & E2 & _). unfold dlr_built. rewrite E1, E2.
  split; [exact H2|]. split; [exact Hd|]. split; [exists 1; split; [now left|lra]|]. exact (ex3_times b H6 H8).
Qed.
