(** When sve.compute raises. *)
From Coq Require Import String ZArith Arith Bool Reals Lra Lia Psatz.
From Coquelicot Require Import Coquelicot.
From Coq Require Import List Sorting.Sorted Sorting.Permutation.
From Verif.Model Require Import Base Util Num Gauss Poly SVE Kernel Compute.
From Verif.Spec Require Import SGauss SPoly SFT SSVE SBasis SKernel SCompute.
From Verif.Proofs Require Import BaseFacts SumFacts IntFacts GaussFacts PPolyFacts SVEFacts BasisPhys KernelProps KernelSegs HintFacts ComputeNodes ComputePost ComputeSampling ComputeMerge ComputeMerged ComputeError ComputeFull.
Import ListNotations.
Open Scope R_scope.
Notation length := List.length.

Lemma sorted_chained l : StronglySorted Rlt l -> chained Rlt l.
Proof.
  induction 1 as [|a l Hs IH Hf]; [exact I|]. destruct l as [|b l]; [exact I|]. inversion Hf; subst. split; auto.
Qed.

Lemma post_defined legendre K eps ng S us s vs : sampling_init legendre K eps ng = Ok S -> gauss_ok (s_n S) (s_rule S) ->
  edges_ok (s_segs_x S) -> edges_ok (s_segs_y S) -> hd 0 (s_segs_x S) <= 1 <= last (s_segs_x S) 0 ->
  exists o, sampling_post S (us, s, vs) = Ok o.
Proof.
  intros HS Hr [Hx Sx] [Hy Sy] H1. unfold sampling_post.
  set (dat := map (collocate (s_n S) (s_rule S) (s_segs_x S) (sqrtw (s_gx S))) us).
  destruct (poly_init_some (s_n S) (length (s_segs_x S) - 1) dat (s_segs_x S) None) as (u & Eu & Nu).
  { lia. } { intros i Hi. left. apply PPolyFacts.sorted_nth_lt; auto. lia. } { exact I. }
  destruct (poly_init_some (s_n S) (length (s_segs_y S) - 1) (map (collocate (s_n S) (s_rule S) (s_segs_y S) (sqrtw (s_gy S))) vs) (s_segs_y S) None) as (v & Ev & Nv).
  { lia. } { intros i Hi. left. apply PPolyFacts.sorted_nth_lt; auto. lia. } { exact I. }
  rewrite Eu. cbn [bind]. rewrite Ev. cbn [bind].
  destruct (poly_init_ok _ _ _ _ _ _ Eu ltac:(lia) Sx) as (G1 & G2 & G3 & G4). destruct Hr as (Hn0 & _).
  assert (R1 : gxmin (vgeom u) = hd 0 (s_segs_x S)) by (unfold gxmin; rewrite G2; destruct (s_segs_x S); reflexivity).
  assert (R2 : gxmax (vgeom u) = last (s_segs_x S) 0).
  { pose proof (g_len _ G1). unfold gxmax. rewrite G2 in *. rewrite <- nth_last. f_equal. lia. }
  unfold canonicalize. rewrite vcall_cval by (auto; lia || lra). cbn [bind].
  destruct (all_some _); eexists; reflexivity.
Qed.

Section Defined.
Variables (have_xprec have_gejsv : bool) (dd : R) (f : tfun).
Variable legendre : dtype -> nat -> res rule.
Variable run : svd_alg -> matrix -> Z -> usv.
Variable argsort : list R -> list nat.
Notation compute := (compute have_xprec have_gejsv dd f legendre run argsort).
Hypothesis Hsort : forall s, sorts s (argsort s).
Hypothesis Hrun : svd_shaped run.

Variables (K : kernel) (ng : option nat).
Hypothesis Hleg : forall t n, (ng = Some n \/ (ng = None /\ (n = 10%nat \/ n = 16%nat))) ->
  exists q, legendre t n = Ok q /\ gauss_ok n q /\ distances_ok q.

Lemma order_used safe : let n := match ng with None => hint_ngauss safe | Some n => n end in
  ng = Some n \/ (ng = None /\ (n = 10%nat \/ n = 16%nat)).
Proof. destruct ng as [n|]; [auto|]. right. split; auto. unfold hint_ngauss. destruct (Rleb _ _); auto. Qed.

Lemma reduced_defined sg t safe : sg = 1 \/ sg = -1 ->
  exists Ks S A, get_symmetrized K sg = Ok Ks /\ sampling_init (legendre t) (reduced_kern f Ks safe) safe ng = Ok S /\
    sampling_matrix S = Ok A /\ gauss_ok (s_n S) (s_rule S) /\ s_segs_x S = half (segments_x K) /\ s_segs_y S = half (segments_y K) /\
    (0 < s_hint S)%Z /\ exists m n, rectangular m n A /\ (0 < m)%nat /\ (0 < n)%nat.
Proof.
  intros Hsg. destruct (symmetrized_ok K sg Hsg) as (Ks & HK). exists Ks.
  destruct (reduced_segments K sg Ks HK) as (hx & hy & R1 & R2 & R3 & R4 & R5 & R6). fold (half (segments_x K)) in R3. fold (half (segments_y K)) in R4. subst hx hy.
  destruct (segments_valid K) as [Vx Vy]. pose proof (half_edges_of _ Vx) as Hx. pose proof (half_edges_of _ Vy) as Hy.
  unfold sampling_init. cbn [reduced_kern sk_segs_x sk_segs_y sk_matrix sk_ngauss sk_nsvals].
  destruct (Hleg t _ (order_used safe)) as (q & Eq & Gq & Dq). rewrite Eq, R1, R2. cbn [bind].
  destruct (proj1 (piecewise_spec q (half (segments_x K))) (sorted_chained _ (proj2 (proj1 Hx)))) as (gx & Ex & _).
  destruct (proj1 (piecewise_spec q (half (segments_y K))) (sorted_chained _ (proj2 (proj1 Hy)))) as (gy & Ey & _).
  rewrite Ex, Ey. cbn [bind]. eexists.
  assert (HM : exists M, reduced_matrix f Ks gx gy = Ok M).
  { destruct (half_ends _ Hx) as (X0 & X1 & X2 & X3). destruct (half_ends _ Hy) as (Y0 & Y1 & _).
    pose proof (node_not_edge _ _ _ _ Gq (proj1 Hx) Ex) as Nx. pose proof (node_not_edge _ _ _ _ Gq (proj1 Hy) Ey) as Ny.
    rewrite X0, X1 in Nx. rewrite Y0, Y1 in Ny.
    assert (Hab : ra q <> rb q) by (destruct Gq as (_ & _ & _ & _ & _ & A & B & _); lra).
    destruct (piecewise_distances _ _ _ Hab Dq Ex) as [D1 D2].
    destruct (piecewise_interval _ _ _ 0 (proj1 (proj1 Hx)) Ex) as [I1 I2]. rewrite X2 in I1. rewrite X3 in I2.
    unfold reduced_matrix. rewrite D1, D2, I1, I2.
    replace (map (fun x => x - 0) (rx gx)) with (rx gx).
    2:{ symmetry. rewrite <- (map_id (rx gx)) at 2. apply map_ext. intros; lra. }
    destruct (reduced_elementwise f Ks (rx gx) (rx gy)) as (M & EM & _); [| |eauto].
    { apply Forall_forall. intros x Hxi. specialize (Nx x Hxi). lra. }
    { apply Forall_forall. intros y Hyi. specialize (Ny y Hyi). lra. } }
  destruct HM as [M HM].
  match goal with |- context [SSVE ?a ?b ?c ?d ?e ?g ?h ?i ?j] => set (S := SSVE a b c d e g h i j) end.
  assert (HS : sampling_init (legendre t) (reduced_kern f Ks safe) safe ng = Ok S).
  { unfold sampling_init. cbn [reduced_kern sk_segs_x sk_segs_y sk_matrix sk_ngauss sk_nsvals]. rewrite Eq, R1, R2. cbn [bind]. rewrite Ex, Ey. reflexivity. }
  assert (HA : exists A, sampling_matrix S = Ok A).
  { unfold sampling_matrix. cbn [S s_mat s_gx s_gy]. rewrite HM. cbn [bind]. eauto. }
  destruct HA as [A HA]. exists A. split; [exact HK|]. split; [reflexivity|]. split; [exact HA|]. split; [exact Gq|]. split; [reflexivity|]. split; [reflexivity|]. split.
  - cbn. pose proof (nsvals_hint (rinner Ks)). pose proof (reduced_hint (rinner Ks)). lia.
  - exact (sampling_rect _ _ _ _ S A HS Gq (proj1 (proj1 Hx)) (proj1 (proj1 Hy)) (reduced_rect f Ks) HA).
Qed.

Lemma full_defined t safe :
  exists S A, sampling_init (legendre t) (full_kern f K safe) safe ng = Ok S /\
    sampling_matrix S = Ok A /\ gauss_ok (s_n S) (s_rule S) /\ s_segs_x S = segments_x K /\ s_segs_y S = segments_y K /\
    (0 < s_hint S)%Z /\ exists m n, rectangular m n A /\ (0 < m)%nat /\ (0 < n)%nat.
Proof.
  destruct (segments_valid K) as [Vx Vy].
  destruct (full_edges _ Vx) as (Hx & X0 & X1 & X2 & X3). destruct (full_edges _ Vy) as (Hy & Y0 & Y1 & _).
  unfold sampling_init. cbn [full_kern sk_segs_x sk_segs_y sk_matrix sk_ngauss sk_nsvals].
  destruct (Hleg t _ (order_used safe)) as (q & Eq & Gq & Dq). rewrite Eq. cbn [bind].
  destruct (proj1 (piecewise_spec q (segments_x K)) (sorted_chained _ (proj2 Hx))) as (gx & Ex & _).
  destruct (proj1 (piecewise_spec q (segments_y K)) (sorted_chained _ (proj2 Hy))) as (gy & Ey & _).
  rewrite Ex, Ey. cbn [bind]. eexists.
  assert (HM : exists M, kernel_matrix f K gx gy = Ok M).
  { pose proof (node_not_edge _ _ _ _ Gq Hx Ex) as Nx. pose proof (node_not_edge _ _ _ _ Gq Hy Ey) as Ny.
    rewrite X0, X1 in Nx. rewrite Y0, Y1 in Ny.
    assert (Hab : ra q <> rb q) by (destruct Gq as (_ & _ & _ & _ & _ & A & B & _); lra).
    destruct (piecewise_distances _ _ _ Hab Dq Ex) as [D1 D2].
    destruct (piecewise_interval _ _ _ 0 (proj1 Hx) Ex) as [I1 I2]. rewrite X2 in I1. rewrite X3 in I2.
    unfold kernel_matrix. rewrite D1, D2, I1, I2.
    destruct (call_elementwise f K (rx gx) (rx gy) (Some (map (fun x => x - -1) (rx gx))) (Some (map (fun x => 1 - x) (rx gx)))) as (M & EM & _); [| | | |eauto].
    { apply Forall_forall. intros x Hxi. specialize (Nx x Hxi). lra. }
    { apply Forall_forall. intros y Hyi. specialize (Ny y Hyi). lra. }
    { right. f_equal. apply map_ext. intros; lra. }
    { right. auto. } }
  destruct HM as [M HM].
  match goal with |- context [SSVE ?a ?b ?c ?d ?e ?g ?h ?i ?j] => set (S := SSVE a b c d e g h i j) end.
  assert (HS : sampling_init (legendre t) (full_kern f K safe) safe ng = Ok S).
  { unfold sampling_init. cbn [full_kern sk_segs_x sk_segs_y sk_matrix sk_ngauss sk_nsvals]. rewrite Eq. cbn [bind]. rewrite Ex, Ey. reflexivity. }
  assert (HA : exists A, sampling_matrix S = Ok A).
  { unfold sampling_matrix. cbn [S s_mat s_gx s_gy]. rewrite HM. cbn [bind]. eauto. }
  destruct HA as [A HA]. exists A. split; [reflexivity|]. split; [exact HA|]. split; [exact Gq|]. split; [reflexivity|]. split; [reflexivity|]. split.
  - cbn. pose proof (nsvals_hint K). lia.
  - exact (sampling_rect _ _ _ _ S A HS Gq (proj1 Hx) (proj1 Hy) (kernel_rect f K) HA).
Qed.

Lemma run_shaped alg A h m n : rectangular m n A -> (0 < m)%nat -> (0 < n)%nat -> (0 < h)%Z ->
  usv_shaped (run alg A (Z.min (Z.min (Z.of_nat (length A)) (Z.of_nat match A with [] => 0%nat | row :: _ => length row end)) h)).
Proof.
  intros R Hm Hn Hh. apply (Hrun alg A _ m n R Hm Hn). destruct R as [<- F]. destruct A as [|row A]; [cbn in Hm; lia|].
  inversion F; subst. cbn [length] in *. lia.
Qed.
Lemma shaped_values b : usv_shaped b -> svals b <> [].
Proof. destruct b as [[us s] vs]. unfold usv_shaped. cbn. tauto. Qed.
Lemma shaped_well (b : usv) : usv_shaped b ->
  let '(us, s, vs) := b in length us = length s /\ length vs = length s /\ nonincreasing s /\ Forall (fun x => 0 <= x) s.
Proof. destruct b as [[us s] vs]. unfold usv_shaped. tauto. Qed.

(** All the steps before the truncation succeed, once the strategy is known. *)
Lemma compute_steps eps cutoff n_sv work st svds safe t strategy w :
  safe_eps have_xprec dd eps work svds = (safe, t, strategy, w) ->
  let rtol := match cutoff with None => Fin (default_cutoff dd t) | Some c => c end in
  match svd_dispatch have_xprec have_gejsv t strategy with
  | Raise e => compute K eps cutoff n_sv ng work st svds = Raise e
  | Ok _ => exists blocks : list usv, all_values blocks <> [] /\
      (forall e, truncate blocks rtol n_sv = Raise e -> compute K eps cutoff n_sv ng work st svds = Raise e) /\
      (forall out, truncate blocks rtol n_sv = Ok out -> exists o, compute K eps cutoff n_sv ng work st svds = Ok o)
  end.
Proof.
  intros Hsafe rtol. unfold Compute.compute. rewrite Hsafe. fold rtol.
  destruct (reduced_defined 1 t safe (or_introl eq_refl)) as (Ke & even & Ae & E1 & E2 & E3 & Ge & Xe & Ye & He & me & ne & Re & Pm & Pn).
  destruct (reduced_defined (-1) t safe (or_intror eq_refl)) as (Ko & odd & Ao & O1 & O2 & O3 & Go & Xo & Yo & Ho' & mo & no & Ro & Qm & Qn).
  destruct (full_defined t safe) as (S & A & F1 & F2 & G & X & Y & HhS & mA & nA & RA & PmA & PnA).
  destruct (segments_valid K) as [Vx Vy].
  destruct (full_edges _ Vx) as (Hx & X0 & X1 & X2 & X3). destruct (full_edges _ Vy) as (Hy & Y0 & Y1 & _).
  pose proof (half_edges_of _ Vx) as Hhx. pose proof (half_edges_of _ Vy) as Hhy. destruct (half_ends _ Hhx) as (_ & _ & A1 & A2).
  assert (Hc : match svd_dispatch have_xprec have_gejsv t strategy with
    | Raise e => (do Ke <- get_symmetrized K 1;
      do even <- sampling_init (legendre t) (reduced_kern f Ke safe) safe ng;
      do Ko <- get_symmetrized K (-1);
      do odd <- sampling_init (legendre t) (reduced_kern f Ko safe) safe ng;
      do Ae <- sampling_matrix even;
      do be <- svd_compute have_xprec have_gejsv run t Ae (Z.max (s_hint even) (s_hint odd)) strategy;
      do Ao <- sampling_matrix odd;
      do bo <- svd_compute have_xprec have_gejsv run t Ao (Z.max (s_hint even) (s_hint odd)) strategy;
      do cut <- truncate [be; bo] rtol n_sv;
      match cut with
      | [be; bo] =>
          do re <- sampling_post even be;
          do ro <- sampling_post odd bo;
          match re, ro with
          | Some re, Some ro => do r <- merge argsort safe (segments_x K) (segments_y K) re ro; Ok (Some r)
          | _, _ => Ok None
          end
      | _ => Raise ValueError
      end) = Raise e
    | Ok _ => exists blocks : list usv, all_values blocks <> [] /\
      (forall e, truncate blocks rtol n_sv = Raise e -> (do Ke <- get_symmetrized K 1;
      do even <- sampling_init (legendre t) (reduced_kern f Ke safe) safe ng;
      do Ko <- get_symmetrized K (-1);
      do odd <- sampling_init (legendre t) (reduced_kern f Ko safe) safe ng;
      do Ae <- sampling_matrix even;
      do be <- svd_compute have_xprec have_gejsv run t Ae (Z.max (s_hint even) (s_hint odd)) strategy;
      do Ao <- sampling_matrix odd;
      do bo <- svd_compute have_xprec have_gejsv run t Ao (Z.max (s_hint even) (s_hint odd)) strategy;
      do cut <- truncate [be; bo] rtol n_sv;
      match cut with
      | [be; bo] =>
          do re <- sampling_post even be;
          do ro <- sampling_post odd bo;
          match re, ro with
          | Some re, Some ro => do r <- merge argsort safe (segments_x K) (segments_y K) re ro; Ok (Some r)
          | _, _ => Ok None
          end
      | _ => Raise ValueError
      end) = Raise e) /\
      (forall out, truncate blocks rtol n_sv = Ok out -> exists o, (do Ke <- get_symmetrized K 1;
      do even <- sampling_init (legendre t) (reduced_kern f Ke safe) safe ng;
      do Ko <- get_symmetrized K (-1);
      do odd <- sampling_init (legendre t) (reduced_kern f Ko safe) safe ng;
      do Ae <- sampling_matrix even;
      do be <- svd_compute have_xprec have_gejsv run t Ae (Z.max (s_hint even) (s_hint odd)) strategy;
      do Ao <- sampling_matrix odd;
      do bo <- svd_compute have_xprec have_gejsv run t Ao (Z.max (s_hint even) (s_hint odd)) strategy;
      do cut <- truncate [be; bo] rtol n_sv;
      match cut with
      | [be; bo] =>
          do re <- sampling_post even be;
          do ro <- sampling_post odd bo;
          match re, ro with
          | Some re, Some ro => do r <- merge argsort safe (segments_x K) (segments_y K) re ro; Ok (Some r)
          | _, _ => Ok None
          end
      | _ => Raise ValueError
      end) = Ok o)
    end).
  { rewrite E1. cbn [bind]. rewrite E2. cbn [bind]. rewrite O1. cbn [bind]. rewrite O2. cbn [bind]. rewrite E3. cbn [bind].
    unfold svd_compute. destruct (svd_dispatch _ _ _ _) as [[alg ww]|e]; [|reflexivity]. cbn [bind].
    rewrite O3. cbn [bind].
    pose proof (run_shaped alg Ae (Z.max (s_hint even) (s_hint odd)) _ _ Re Pm Pn ltac:(lia)) as Sbe.
    pose proof (run_shaped alg Ao (Z.max (s_hint even) (s_hint odd)) _ _ Ro Qm Qn ltac:(lia)) as Sbo.
    match type of Sbe with usv_shaped ?b => set (be := b) in * end. match type of Sbo with usv_shaped ?b => set (bo := b) in * end. exists [be; bo].
    split. { unfold all_values. cbn [flat_map]. intros H. apply app_eq_nil in H as [H _]. apply (shaped_values _ Sbe H). }
    split; [intros e ->; reflexivity|]. intros out Ho. rewrite Ho. cbn [bind].
    pose proof Ho as Hp. apply truncate_prefix in Hp as [Hp _].
    inversion Hp as [|? be' ? ? (i & _ & Pi) Hp1]; subst. inversion Hp1 as [|? bo' ? ? (j & _ & Pj) Hp2]; subst. inversion Hp2; subst.
    destruct be' as [[ue se] ve]. destruct bo' as [[uo so] vo].
    destruct (post_defined _ _ _ _ _ ue se ve E2 Ge) as [re Hre]; [rewrite Xe; apply Hhx|rewrite Ye; apply Hhy|rewrite Xe, A1, A2; lra|].
    destruct (post_defined _ _ _ _ _ uo so vo O2 Go) as [ro Hro]; [rewrite Xo; apply Hhx|rewrite Yo; apply Hhy|rewrite Xo, A1, A2; lra|].
    rewrite Hre, Hro. cbn [bind]. destruct re as [re|]; [|eexists; reflexivity]. destruct ro as [ro|]; [|eexists; reflexivity].
    assert (Lx : (2 <= length (s_segs_x even))%nat) by (rewrite Xe; apply Hhx).
    assert (Ly : (2 <= length (s_segs_y even))%nat) by (rewrite Ye; apply Hhy).
    assert (Lx' : (2 <= length (s_segs_x odd))%nat) by (rewrite Xo; apply Hhx).
    assert (Ly' : (2 <= length (s_segs_y odd))%nat) by (rewrite Yo; apply Hhy).
    assert (We : let '(us, s, vs) := be in length us = length s /\ length vs = length s /\ nonincreasing s /\ Forall (fun x => 0 <= x) s).
    { exact (shaped_well _ Sbe). }
    assert (Wo : let '(us, s, vs) := bo in length us = length s /\ length vs = length s /\ nonincreasing s /\ Forall (fun x => 0 <= x) s).
    { exact (shaped_well _ Sbo). }
    destruct (well_post _ _ _ _ _ _ _ _ _ E2 Ge Lx Ly We Pi Hre) as (_ & On1 & _).
    destruct (well_post _ _ _ _ _ _ _ _ _ O2 Go Lx' Ly' Wo Pj Hro) as (_ & On2 & _).
    rewrite Xe, Ye in On1. rewrite Xo, Yo in On2.
    assert (Nn : s_n odd = s_n even).
    { apply sampling_init_inv in E2 as (_ & _ & _ & _ & _ & _ & _ & _ & I1). apply sampling_init_inv in O2 as (_ & _ & _ & _ & _ & _ & _ & _ & I2). cbn [reduced_kern sk_ngauss] in I1, I2. congruence. }
    rewrite Nn in On2.
    destruct (merge_ok argsort safe (s_n even) _ _ re ro Hhx Hhy On1 On2 (Hsort _)) as (r & _ & _ & Hm & _).
    destruct (reduced_segments K 1 Ke E1) as (hx & hy & _ & _ & R3 & R4 & R5 & R6). fold (half (segments_x K)) in R3. fold (half (segments_y K)) in R4. subst hx hy.
    rewrite R5, R6 in Hm. rewrite Hm. cbn [bind]. eexists; reflexivity. }
  destruct st as [[]|]; [|exact Hc|exact Hc]. clear Hc.
  rewrite F1. cbn [bind]. rewrite F2. cbn [bind]. unfold svd_compute.
  destruct (svd_dispatch _ _ _ _) as [[alg ww]|e]; [|reflexivity]. cbn [bind].
  pose proof (run_shaped alg A (s_hint S) _ _ RA PmA PnA HhS) as Sb.
  match type of Sb with usv_shaped ?z => set (b := z) in * end. exists [b].
  split. { unfold all_values. cbn [flat_map]. intros H. apply app_eq_nil in H as [H _]. apply (shaped_values _ Sb H). }
  split; [intros e ->; reflexivity|]. intros out Ho. rewrite Ho. cbn [bind].
  apply truncate_prefix in Ho as [Hp _].
  inversion Hp as [|? b' ? ? (i & _ & Pi) Hp1]; subst. inversion Hp1; subst. destruct b' as [[u s] v].
  apply (post_defined _ _ _ _ _ u s v F1 G); [rewrite X; apply Hx|rewrite Y; apply Hy|rewrite X, X2, X3; lra].
Qed.

(** The outcomes. *)
Lemma dispatch_known eps work svds safe t strategy w : safe_eps have_xprec dd eps work svds = (safe, t, strategy, w) ->
  known_strategy svds -> exists a, svd_dispatch have_xprec have_gejsv t strategy = Ok a.
Proof.
  intros H Hk. assert (Hs : strategy = "fast"%string \/ strategy = "default"%string \/ strategy = "accurate"%string).
  { unfold safe_eps in H. destruct Hk as [-> | [-> | [-> | ->]]].
    - destruct eps as [e|].
      + match type of H with context [if ?b then _ else _] => destruct b end; repeat match type of H with context [if ?b then _ else _] => destruct b end; injection H as <- <- <- <-; auto.
      + injection H as <- <- <- <-; auto.
    - injection H as <- <- <- <-; auto.
    - injection H as <- <- <- <-; auto.
    - injection H as <- <- <- <-; auto. }
  unfold svd_dispatch. destruct have_xprec, t; try (eexists; reflexivity);
    destruct Hs as [-> | [-> | ->]]; cbn; destruct have_gejsv; eexists; reflexivity.
Qed.

Lemma cutoff_valid cutoff t work eps svds safe strategy w : safe_eps have_xprec dd eps work svds = (safe, t, strategy, w) ->
  (forall c, cutoff = Some c -> exists x, valid_rtol c x) ->
  (cutoff = None -> 0 <= dd <= / 2 /\ forall e, work = Some (OtherType e) -> 0 <= e <= / 2) ->
  exists x, valid_rtol (match cutoff with None => Fin (default_cutoff dd t) | Some c => c end) x.
Proof.
  intros Hs Hc Hn. destruct cutoff as [c|]; [eauto|]. destruct (Hn eq_refl) as [Hd Ho].
  exists (default_cutoff dd t). split; [reflexivity|]. unfold default_cutoff, finfo_eps.
  destruct t as [| |e]; [assert (0 < / 2 ^ 52 <= / 2) by lra; lra|lra|].
  assert (work = Some (OtherType e)).
  { unfold safe_eps in Hs. destruct work as [t|].
    - destruct svds; [injection Hs as <- <- <- <-; auto|]. destruct eps; [destruct (xltb _ _)|]; injection Hs as <- <- <- <-; auto.
    - exfalso. assert (forall b, max_dtype b <> OtherType e) by (destruct b; discriminate).
      destruct eps as [e'|]; [destruct (xltb e' (Fin (/ 10 ^ 8)))|]; destruct svds; try destruct (xltb _ _); injection Hs as <- Ht <- <-;
        solve [congruence | eapply H; eauto]. }
  specialize (Ho e H). lra.
Qed.

Lemma compute_returns eps cutoff n_sv work st svds :
  known_strategy svds -> (n_sv = None \/ exists z, n_sv = Some (PyInt z) /\ (0 <= z)%Z) ->
  (forall c, cutoff = Some c -> exists x, valid_rtol c x) ->
  (cutoff = None -> 0 <= dd <= / 2 /\ forall e, work = Some (OtherType e) -> 0 <= e <= / 2) ->
  exists o, compute K eps cutoff n_sv ng work st svds = Ok o.
Proof.
  intros Hk Hn Hc Hc0. destruct (safe_eps have_xprec dd eps work svds) as [[[safe t] strategy] w] eqn:Hs.
  pose proof (compute_steps eps cutoff n_sv work st svds _ _ _ _ Hs) as H. cbv zeta in H.
  destruct (dispatch_known _ _ _ _ _ _ _ Hs Hk) as [a Ea]. rewrite Ea in H. destruct H as (blocks & Hb & _ & H).
  destruct (cutoff_valid cutoff t work eps svds _ _ _ Hs Hc Hc0) as [x Hx].
  destruct (truncate_outcomes blocks (match cutoff with None => Fin (default_cutoff dd t) | Some c => c end) n_sv) as (_ & _ & _ & Ht & _).
  destruct Hn as [-> | (z & -> & Hz)].
  - destruct (Ht x 0%Z) as [out Ho]; auto. eauto.
  - destruct (Ht x z) as [out Ho]; auto. eauto.
Qed.

Lemma compute_rejects eps cutoff n_sv work st svds : known_strategy svds ->
  (invalid_lmax n_sv -> compute K eps cutoff n_sv ng work st svds = Raise ValueError) /\
  (n_sv <> Some (PyFloat PInf) -> (exists c, cutoff = Some c /\ forall x, ~ valid_rtol c x) ->
     compute K eps cutoff n_sv ng work st svds = Raise ValueError) /\
  (n_sv = Some (PyFloat PInf) -> compute K eps cutoff n_sv ng work st svds = Raise OverflowError).
Proof.
  intros Hk. destruct (safe_eps have_xprec dd eps work svds) as [[[safe t] strategy] w] eqn:Hs.
  pose proof (compute_steps eps cutoff n_sv work st svds _ _ _ _ Hs) as H. cbv zeta in H.
  destruct (dispatch_known _ _ _ _ _ _ _ Hs Hk) as [a Ea]. rewrite Ea in H. destruct H as (blocks & Hb & H & _).
  destruct (truncate_outcomes blocks (match cutoff with None => Fin (default_cutoff dd t) | Some c => c end) n_sv) as (T1 & T2 & T3 & _).
  split; [auto|]. split; [|auto]. intros H1 (c & -> & Hc). apply H, T2; auto.
Qed.

Lemma compute_unknown eps cutoff n_sv work st s :
  s <> "fast"%string -> s <> "default"%string -> s <> "accurate"%string ->
  (have_xprec = false \/ exists t, work = Some t /\ t <> DDouble) ->
  compute K eps cutoff n_sv ng work st (Some s) = Raise ValueError.
Proof.
  intros H1 H2 H3 Ht. destruct (safe_eps have_xprec dd eps work (Some s)) as [[[safe t] strategy] w] eqn:Hs.
  pose proof (compute_steps eps cutoff n_sv work st (Some s) _ _ _ _ Hs) as H. cbv zeta in H.
  assert (strategy = s /\ (have_xprec = false \/ t <> DDouble)) as [-> Hd].
  { unfold safe_eps in Hs. injection Hs as <- <- <- <-. split; auto. destruct Ht as [->|(t & -> & Ht)]; auto. }
  assert (E : svd_dispatch have_xprec have_gejsv t s = Raise ValueError).
  { unfold svd_dispatch. apply String.eqb_neq in H1, H2, H3. rewrite H1, H2, H3.
    destruct Hd as [->|Hd]; [reflexivity|]. destruct have_xprec, t; congruence. }
  rewrite E in H. exact H.
Qed.

(** The result is not finite only if a left function vanishes at 1. *)
Lemma compute_none_inv eps cutoff n_sv work st svds :
  compute K eps cutoff n_sv ng work st svds = Ok None -> st <> Some SampleStrat ->
  exists sg Ks t safe S A alg h kk b', (sg = 1 \/ sg = -1) /\ get_symmetrized K sg = Ok Ks /\
    sampling_init (legendre t) (reduced_kern f Ks safe) safe ng = Ok S /\ sampling_matrix S = Ok A /\
    prefix_of kk (run alg A h) b' /\ sampling_post S b' = Ok None.
Proof.
  unfold Compute.compute. intros H Hst. destruct (safe_eps _ _ _ _ _) as [[[safe t] strategy] w].
  set (rtol := match cutoff with None => _ | Some c => c end) in H.
  assert (H' : (do Ke <- get_symmetrized K 1;
      do even <- sampling_init (legendre t) (reduced_kern f Ke safe) safe ng;
      do Ko <- get_symmetrized K (-1);
      do odd <- sampling_init (legendre t) (reduced_kern f Ko safe) safe ng;
      do Ae <- sampling_matrix even;
      do be <- svd_compute have_xprec have_gejsv run t Ae (Z.max (s_hint even) (s_hint odd)) strategy;
      do Ao <- sampling_matrix odd;
      do bo <- svd_compute have_xprec have_gejsv run t Ao (Z.max (s_hint even) (s_hint odd)) strategy;
      do cut <- truncate [be; bo] rtol n_sv;
      match cut with
      | [be; bo] =>
          do re <- sampling_post even be;
          do ro <- sampling_post odd bo;
          match re, ro with
          | Some re, Some ro => do r <- merge argsort safe (segments_x K) (segments_y K) re ro; Ok (Some r)
          | _, _ => Ok None
          end
      | _ => Raise ValueError
      end) = Ok None) by (destruct st as [[]|]; try congruence; exact H).
  clear H. rename H' into H.
  destruct (get_symmetrized K 1) as [Ke|] eqn:E1; [|discriminate]. cbn [bind] in H.
  destruct (sampling_init (legendre t) (reduced_kern f Ke safe) safe ng) as [even|] eqn:E2; [|discriminate]. cbn [bind] in H.
  destruct (get_symmetrized K (-1)) as [Ko|] eqn:E3; [|discriminate]. cbn [bind] in H.
  destruct (sampling_init (legendre t) (reduced_kern f Ko safe) safe ng) as [odd|] eqn:E4; [|discriminate]. cbn [bind] in H.
  destruct (sampling_matrix even) as [Ae|] eqn:E5; [|discriminate]. cbn [bind] in H.
  destruct (svd_compute _ _ _ _ Ae _ _) as [be|] eqn:E6; [|discriminate]. cbn [bind] in H.
  destruct (sampling_matrix odd) as [Ao|] eqn:E7; [|discriminate]. cbn [bind] in H.
  destruct (svd_compute _ _ _ _ Ao _ _) as [bo|] eqn:E8; [|discriminate]. cbn [bind] in H.
  apply svd_inv in E6 as (alge & he & -> & _). apply svd_inv in E8 as (algo & ho & -> & _).
  destruct (truncate _ _ _) as [cut|] eqn:E9; [|discriminate]. cbn [bind] in H.
  destruct cut as [|be' [|bo' [|]]]; try discriminate.
  destruct (truncate2 _ _ _ _ _ _ E9) as (i & j & Pi & Pj).
  destruct (sampling_post even be') as [re|] eqn:E10; [|discriminate]. cbn [bind] in H.
  destruct (sampling_post odd bo') as [ro|] eqn:E11; [|discriminate]. cbn [bind] in H.
  destruct re as [re|].
  - destruct ro as [ro|].
    + destruct (merge _ _ _ _ _ _) as [r'|] eqn:E12; discriminate.
    + exists (-1), Ko, t, safe, odd, Ao, algo, ho, j, bo'. auto 10.
  - exists 1, Ke, t, safe, even, Ae, alge, he, i, be'. auto 10.
Qed.
End Defined.
