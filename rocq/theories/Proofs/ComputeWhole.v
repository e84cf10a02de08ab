(** Statements about sve.compute for both strategies. *)
From Coq Require Import String ZArith Arith Bool Reals Lra Lia Psatz.
From Coquelicot Require Import Coquelicot.
From Coq Require Import List Sorting.Sorted Sorting.Permutation.
From Verif.Model Require Import Base Util Num Gauss Poly SVE Kernel Compute.
From Verif.Spec Require Import SGauss SPoly SFT SSVE SBasis SKernel SCompute.
From Verif.Proofs Require Import KernelSegs LegRoots ComputeFull ComputeDefined ComputeCase.
Import ListNotations.
Open Scope R_scope.
Notation length := List.length.

Lemma wellformed have_xprec have_gejsv dd f legendre run argsort K eps cutoff n_sv ng work st svds r :
  good_rules legendre -> (forall s, sorts s (argsort s)) -> svd_shaped run ->
  compute have_xprec have_gejsv dd f legendre run argsort K eps cutoff n_sv ng work st svds = Ok (Some r) ->
  nonincreasing (ss r) /\ Forall (fun x => 0 < x) (ss r) /\ within (length (ss r)) n_sv /\
  (exists n, sve_on n (segments_x K) (segments_y K) r /\ forall m, ng = Some m -> n = m) /\
  (exists e t strategy w, safe_eps have_xprec dd eps work svds = (e, t, strategy, w) /\ seps r = Some e) /\
  (forall l g, represents (su r) l g -> 0 < g 1).
Proof.
  intros Hl Hs Hr Hc.
  assert (D : st = Some SampleStrat \/ st <> Some SampleStrat) by (destruct st as [[]|]; auto; right; discriminate).
  destruct D as [->|Hst].
  - exact (wellformed_sample have_xprec have_gejsv dd f legendre run argsort Hl K eps cutoff n_sv ng work svds r Hc Hr).
  - destruct (wellformed_centro have_xprec have_gejsv dd f legendre run argsort Hl Hs K eps cutoff n_sv ng work st svds r Hc Hst Hr) as (A & B & C & D & E & F & _).
    auto 10.
Qed.

Lemma parities have_xprec have_gejsv dd f legendre run argsort K eps cutoff n_sv ng work st svds r :
  good_rules legendre -> (forall s, sorts s (argsort s)) -> svd_shaped run ->
  compute have_xprec have_gejsv dd f legendre run argsort K eps cutoff n_sv ng work st svds = Ok (Some r) ->
  st <> Some SampleStrat ->
  forall l p q, nth_error (vcols (su r)) l = Some p -> nth_error (vcols (sv r)) l = Some q ->
    (csym p = 1 \/ csym p = -1) /\ csym q = csym p /\
    has_parity (vgeom (su r)) p (csym p) /\ has_parity (vgeom (sv r)) q (csym q).
Proof.
  intros Hl Hs Hr Hc Hst.
  exact (proj2 (proj2 (proj2 (proj2 (proj2 (proj2 (wellformed_centro have_xprec have_gejsv dd f legendre run argsort Hl Hs K eps cutoff n_sv ng work st svds r Hc Hst Hr))))))).
Qed.

Lemma basis_input have_xprec have_gejsv dd f legendre run argsort K eps cutoff n_sv ng work st svds r :
  good_rules legendre -> (forall s, sorts s (argsort s)) -> svd_shaped run ->
  compute have_xprec have_gejsv dd f legendre run argsort K eps cutoff n_sv ng work st svds = Ok (Some r) ->
  ss r <> [] -> sve_ok r.
Proof.
  intros Hl Hs Hr Hc Hn.
  destruct (wellformed _ _ _ _ _ _ _ _ _ _ _ _ _ _ _ _ Hl Hs Hr Hc) as (A & B & _ & (n & On & _) & _).
  destruct (segments_valid K) as [Vx Vy]. destruct (full_edges _ Vx) as (_ & _ & _ & X2 & X3). destruct (full_edges _ Vy) as (_ & _ & _ & Y2 & Y3).
  destruct (on_range _ _ _ _ On) as (U1 & U2 & U3 & U4). pose proof On as (A1 & A2 & A3 & A4 & A5 & A6 & A7 & A8).
  unfold sve_ok. repeat (split; [first [assumption|congruence]|]). auto.
Qed.

Lemma returns have_xprec have_gejsv dd f legendre run argsort K eps cutoff n_sv ng work st svds :
  (forall s, sorts s (argsort s)) -> svd_shaped run ->
  (forall t n, (ng = Some n \/ (ng = None /\ (n = 10 \/ n = 16)%nat)) ->
     exists q, legendre t n = Ok q /\ gauss_ok n q /\ distances_ok q) ->
  known_strategy svds ->
  (n_sv = None \/ exists z, n_sv = Some (PyInt z) /\ (0 <= z)%Z) ->
  (forall c, cutoff = Some c -> exists x, valid_rtol c x) ->
  (cutoff = None -> 0 <= dd <= / 2 /\ forall e, work = Some (OtherType e) -> 0 <= e <= / 2) ->
  exists o, compute have_xprec have_gejsv dd f legendre run argsort K eps cutoff n_sv ng work st svds = Ok o.
Proof.
  intros Hs Hr Hl H1 H2 H3 H4.
  exact (compute_returns have_xprec have_gejsv dd f legendre run argsort Hs Hr K ng Hl eps cutoff n_sv work st svds H1 H2 H3 H4).
Qed.

Lemma rejects have_xprec have_gejsv dd f legendre run argsort K eps cutoff n_sv ng work st svds :
  (forall s, sorts s (argsort s)) -> svd_shaped run ->
  (forall t n, (ng = Some n \/ (ng = None /\ (n = 10 \/ n = 16)%nat)) ->
     exists q, legendre t n = Ok q /\ gauss_ok n q /\ distances_ok q) ->
  known_strategy svds ->
  (invalid_lmax n_sv -> compute have_xprec have_gejsv dd f legendre run argsort K eps cutoff n_sv ng work st svds = Raise ValueError) /\
  (n_sv <> Some (PyFloat PInf) -> (exists c, cutoff = Some c /\ forall x, ~ valid_rtol c x) ->
     compute have_xprec have_gejsv dd f legendre run argsort K eps cutoff n_sv ng work st svds = Raise ValueError) /\
  (n_sv = Some (PyFloat PInf) ->
     compute have_xprec have_gejsv dd f legendre run argsort K eps cutoff n_sv ng work st svds = Raise OverflowError).
Proof.
  intros Hs Hr Hl. exact (compute_rejects have_xprec have_gejsv dd f legendre run argsort Hs Hr K ng Hl eps cutoff n_sv work st svds).
Qed.

Lemma unknown have_xprec have_gejsv dd f legendre run argsort K eps cutoff n_sv ng work st s :
  (forall s, sorts s (argsort s)) -> svd_shaped run ->
  (forall t n, (ng = Some n \/ (ng = None /\ (n = 10 \/ n = 16)%nat)) ->
     exists q, legendre t n = Ok q /\ gauss_ok n q /\ distances_ok q) ->
  ~ known_strategy (Some s) -> (have_xprec = false \/ exists t, work = Some t /\ t <> DDouble) ->
  compute have_xprec have_gejsv dd f legendre run argsort K eps cutoff n_sv ng work st (Some s) = Raise ValueError.
Proof.
  intros Hs Hr Hl Hn. unfold known_strategy in Hn.
  apply (compute_unknown have_xprec have_gejsv dd f legendre run argsort Hs Hr K ng Hl eps cutoff n_sv work st s); intros ->; apply Hn; auto.
Qed.

(** The concrete runs. *)
Lemma case_hypotheses have_xprec have_gejsv dd :
  good_rules leg1 /\ (forall s, sorts s (sort_indices s)) /\ svd_shaped row_svd /\ svd_shaped pair_svd /\
  tfun_ok casef /\ 0 < k_lambda caseK /\
  (forall x y, -1 <= x <= 1 -> -1 <= y <= 1 -> has_value casef caseK x y (casek x y)) /\
  (exists r, case_compute have_xprec have_gejsv dd = Ok (Some r)) /\
  (exists r, case_sample have_xprec have_gejsv dd = Ok (Some r)).
Proof.
  split; [exact leg1_ok|]. split; [exact sort_indices_ok|]. split; [exact row_svd_shaped|]. split; [exact pair_svd_shaped|].
  split; [exact casef_ok|]. split; [cbn; lra|]. split; [exact casek_value|]. split; [apply case_returns|apply case_sample_returns].
Qed.

Lemma case_decompositions t n q alg h : leg1 t n = Ok q ->
  (forall gx gy, piecewise q (half (segments_x caseK)) = Ok gx -> piecewise q (half (segments_y caseK)) = Ok gy ->
     let Ae := weighted (fun x y => casek x y + casek x (- y)) gx gy in
     let Ao := weighted (fun x y => casek x y - casek x (- y)) gx gy in
     exact_svd (length (rx gx)) (length (rx gy)) Ae (row_svd alg Ae h) /\
     exact_svd (length (rx gx)) (length (rx gy)) Ao (row_svd alg Ao h)) /\
  (forall gx gy, piecewise q (segments_x caseK) = Ok gx -> piecewise q (segments_y caseK) = Ok gy ->
     let A := weighted casek gx gy in
     exact_svd (length (rx gx)) (length (rx gy)) A (pair_svd alg A h)).
Proof.
  intros Hq. split; intros gx gy Hx Hy.
  - exact (case_svd t n q gx gy alg h Hq Hx Hy).
  - exact (proj1 (case_svd_full t n q gx gy alg h Hq Hx Hy)).
Qed.

Lemma case_known : known_strategy (Some "default"%string) /\ (forall t n, (Some 1%nat = Some n \/ (Some 1%nat = None /\ (n = 10 \/ n = 16)%nat)) ->
     exists q, leg1 t n = Ok q /\ gauss_ok n q /\ distances_ok q) /\ (exists x, valid_rtol (Fin 0) x) /\
  invalid_lmax (Some (PyInt (-1))) /\ ~ known_strategy (Some "fastest"%string).
Proof.
  split; [right; right; left; reflexivity|]. split.
  - intros t n [[= <-]|[H _]]; [|discriminate]. exists gauss1. split; [reflexivity|apply gauss1_ok].
  - split; [exists 0; split; [reflexivity|lra]|]. split; [cbn; lia|]. intros [H|[H|[H|H]]]; discriminate.
Qed.

Lemma default_orders :
  exists legendre, good_rules legendre /\
    (forall t n, (n = 10 \/ n = 16)%nat -> exists q, legendre t n = Ok q /\ gauss_ok n q /\ distances_ok q) /\
    forall have_xprec have_gejsv dd K eps, 0 <= dd <= / 2 -> exists o,
      compute have_xprec have_gejsv dd casef legendre row_svd sort_indices K eps None None None None None None = Ok o.
Proof.
  destruct (rules_exist 10 16 ltac:(lia) ltac:(lia)) as (legendre & G & E). exists legendre. split; [exact G|].
  assert (H : forall t n, (n = 10 \/ n = 16)%nat -> exists q, legendre t n = Ok q /\ gauss_ok n q /\ distances_ok q).
  { intros t n Hn. destruct (E t n Hn) as [q Eq]. exists q. split; [exact Eq|]. exact (G _ _ _ Eq). }
  split; [exact H|]. intros have_xprec have_gejsv dd K eps Hdd.
  apply returns; auto.
  - exact sort_indices_ok.
  - exact row_svd_shaped.
  - intros t n [Hn|[_ Hn]]; [discriminate|]. apply H; auto.
  - left; reflexivity.
  - intros c Hc; discriminate.
  - intros _. split; [exact Hdd|]. intros e He; discriminate.
Qed.

(** The default cutoff is twice the epsilon of the work type. *)
Lemma cutoff_default hx hg dd f legendre run argsort K eps n_sv ng work st svds safe t strategy w :
  safe_eps hx dd eps work svds = (safe, t, strategy, w) ->
  let with_cutoff c := compute hx hg dd f legendre run argsort K eps c n_sv ng work st svds in
  (t = Float64 -> with_cutoff None = with_cutoff (Some (Fin (2 * / 2 ^ 52)))) /\
  (t = DDouble -> with_cutoff None = with_cutoff (Some (Fin (2 * dd)))) /\
  (forall e, t = OtherType e -> with_cutoff None = with_cutoff (Some (Fin (2 * e)))).
Proof. intros H. cbv zeta. unfold compute. rewrite H. split; [|split]; intros; subst t; reflexivity. Qed.
