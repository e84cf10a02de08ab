(** Calls with the high-frequency model in rounded arithmetic. *)
From Coq Require Import Reals ZArith Arith Bool Lra Lia Psatz.
From Coquelicot Require Import Coquelicot.
From Flocq Require Import Core.
From Coq Require Import List.
From Verif.Model Require Import Base Num IEEE Poly FT PolyIEEE FTIEEE DefaultsIEEE TailIEEE SVE Basis BasisIEEE Defaults.
From Verif.Spec Require Import SPoly SFT SKernelIEEE SPolyIEEE SFTIEEE SSVEIEEE SBasisIEEE SDefaults STailIEEE.
From Verif.Proofs Require Import BaseFacts SumFacts LegFacts FTFacts FTModel FTCall FTProps PolyRound KernelRoundCall FTRound FTRoundProps BasisRound BasisRoundProps MatsRoundBasis DefaultsMore AdapterProps TailGiw TailCoef TailProps.
Import ListNotations.
Open Scope R_scope.
Notation idr := (fun t : R => t).

(** * Statements with one hypothesis *)
Section Good.
Context (u eta : R) (rd : R -> R) (old : bool) (Hrd : rounding u eta rd) (Hu : 0 < u <= / 10000) (He : 0 <= eta).

Lemma good_model g cols q : good_end u eta g -> q <> FAny ->
  exists ms, power_model_rd old rd q (VPoly g cols) = Ok ms /\ length ms = length cols /\
  forall l c, nth_error cols l = Some c -> length (nth l ms []) = gorder g /\
    forall m, (m < gorder g)%nat -> Rabs (nth m (nth l ms []) 0 - true_moment q g c l m) <= moment_error u eta g c m.
Proof. intros (A & B & C & D & E & F & G) Hq. apply model_near; auto. Qed.

Lemma any_model g cols : good_end u eta g -> power_model_rd old rd FAny (VPoly g cols) = Raise KeyError.
Proof.
  intros (A & B & C & D & E & F & G). unfold power_model_rd. destruct (derivs_near u eta rd old Hrd Hu He g cols A B C D E F G) as (ds & -> & _). reflexivity.
Qed.

Lemma good_tail g cols q F ms l c n : good_end u eta g -> Rabs (f_pi F - PI) <= u * PI ->
  power_model_rd old rd q (VPoly g cols) = Ok ms -> nth_error cols l = Some c -> n <> 0%Z -> 1000 * eta * Rabs (IZR n) <= u ->
  Cmod (Cminus (tail_rd rd F ms l n) (true_tail q g c l n)) <= tail_error u eta g c n.
Proof.
  intros Hg. assert (Hq : power_model_rd old rd q (VPoly g cols) = Ok ms -> q <> FAny) by (intros Em ->; rewrite any_model in Em by exact Hg; discriminate).
  destruct Hg as (A & B & C & D & E & F' & G). intros Hp Em El Hn Hs. eapply tail_near; eauto.
Qed.

Lemma zero_tail F ms l : tail_rd rd F ms l 0 = RtoC 0.
Proof.
  unfold tail_rd. destruct Hrd as (_ & P & N). assert (Z : rd 0 = 0) by (pose proof (P 0 ltac:(lra)); pose proof (N 0 ltac:(lra)); lra).
  unfold inv_iw_rd. cbn [Z.eqb]. induction (nth l ms []) as [|m ms' IH]; [reflexivity|]. cbn [giw_rd]. rewrite !Rmult_0_r, Z. unfold RtoC. f_equal. ring.
Qed.

Lemma call_tail F f cols ms ns M l c c' j n x : good_end u eta (fgeom f) -> Rabs (f_pi F - PI) <= u * PI ->
  power_model_rd old rd (ffreq f) (VPoly (fgeom f) cols) = Ok ms -> nth_error cols l = Some c -> nth_error (fcols f) l = Some c' ->
  ft_call_rd rd F (tail_rd rd F ms) f ns = Ok M -> nth_error ns j = Some n ->
  fasymp f = Some x -> x <= Rabs (IZR n) -> n <> 0%Z -> 1000 * eta * Rabs (IZR n) <= u ->
  exists v, entry M l j = Some v /\ Cmod (Cminus v (true_tail (ffreq f) (fgeom f) c l n)) <= tail_error u eta (fgeom f) c n.
Proof.
  intros Hg Hp Em El El' Hc En Ha Hx Hn Hs. pose proof Hg as (A & _ & C & D & _). exists (tail_rd rd F ms l n). split.
  - eapply call_rd_model; eauto. apply A.
  - eapply good_tail; eauto.
Qed.

Lemma call_integral F f cols ms ns M l c c' j n x : good_end u eta (fgeom f) -> gxmin (fgeom f) = -1 -> Rabs (f_pi F - PI) <= u * PI ->
  power_model_rd old rd (ffreq f) (VPoly (fgeom f) cols) = Ok ms -> nth_error cols l = Some c -> nth_error (fcols f) l = Some c' ->
  ft_call_rd rd F (tail_rd rd F ms) f ns = Ok M -> nth_error ns j = Some n ->
  fasymp f = Some x -> x <= Rabs (IZR n) -> n <> 0%Z -> 1000 * eta * Rabs (IZR n) <= u ->
  has_parity (ideal_geom (fgeom f)) c ((-1) ^ l) ->
  exists v w, entry M l j = Some v /\
    is_fourier (fun x => PI * IZR n * (x + 1) / 2) (cval (ideal_geom (fgeom f)) c) (-1) 1 (Cmult (RtoC (sqrt 2)) w) /\
    Cmod (Cminus (Cplus v (Cdiv (jump_tail (fgeom f) c n) (RtoC (sqrt 2)))) w) <= tail_error u eta (fgeom f) c n.
Proof.
  intros Hg Hmin Hp Em El El' Hc En Ha Hx Hn Hs Hpar.
  destruct (call_tail F f cols ms ns M l c c' j n x) as (v & Ev & Bv); auto.
  assert (Hq : ffreq f <> FAny) by (intros E; rewrite E, any_model in Em by exact Hg; discriminate).
  assert (Hfn : freq_ok (ffreq f) n). { destruct (freq_dec (ffreq f) ns) as [HF|HF]; [|rewrite call_rd_freq in Hc by exact HF; discriminate]. rewrite Forall_forall in HF. apply HF. eapply nth_error_In; eauto. }
  assert (S2 : RtoC (sqrt 2) <> RtoC 0) by (intros Z; apply RtoC_inj in Z; pose proof (Rlt_sqrt2_0); lra).
  exists v, (Cplus (true_tail (ffreq f) (fgeom f) c l n) (Cdiv (jump_tail (fgeom f) c n) (RtoC (sqrt 2)))). split; [exact Ev|]. split.
  - replace (Cmult (RtoC (sqrt 2)) (Cplus (true_tail (ffreq f) (fgeom f) c l n) (Cdiv (jump_tail (fgeom f) c n) (RtoC (sqrt 2)))))
      with (Cplus (Cmult (RtoC (sqrt 2)) (true_tail (ffreq f) (fgeom f) c l n)) (jump_tail (fgeom f) c n)) by (field; exact S2).
    destruct Hg as (A & B & C & D & E & F' & G). eapply tail_fourier; eauto.
  - set (J := Cdiv _ _). set (t := true_tail _ _ _ _ _) in *. replace (Cminus (Cplus v J) (Cplus t J)) with (Cminus v t) by ring. exact Bv.
Qed.
End Good.

(** * Without rounding *)
Definition same_cols (g : geom) : list col -> list col -> Prop := Forall2 (fun c d => forall k i, (k < glen g)%nat -> cdat c k i = cdat d k i).
Lemma vcall_same g cs ds x : same_cols g cs ds -> vcall (VPoly g cs) x = vcall (VPoly g ds) x.
Proof.
  intros H. unfold vcall. cbn [vgeom vcols]. destruct (split g x) as [ix|]; [|reflexivity]. cbn [bind]. destruct (glen g) eqn:E; [reflexivity|]. f_equal. rewrite <- E in *.
  induction H as [|c d cs ds Hc H IH]; [reflexivity|]. cbn [map]. f_equal; [|exact IH]. f_equal. unfold legval. apply sumn_ext. intros k Hk. rewrite Hc by exact Hk. reflexivity.
Qed.
Lemma deriv_same g cs ds : same_cols g cs ds -> same_cols (gderiv 1 g) (map (cderiv_rd idr g) cs) (map (cderiv 1 g) ds).
Proof.
  intros H. induction H as [|c d cs ds Hc H IH]; [constructor|]. cbn [map]. constructor; [|exact IH].
  intros k i Hk. unfold cderiv_rd, cderiv. cbn [cdat]. change (glen (gderiv 1 g)) with (legder1_len (glen g)) in Hk.
  rewrite legder_exact by exact Hk. cbn [legder pow]. rewrite Rmult_1_r. unfold legder1. f_equal. f_equal. apply sumn_ext. intros j Hj. rewrite Hc by exact Hj. reflexivity.
Qed.
Lemma derivs_from_same old k : forall g cs ds x, same_cols g cs ds -> derivs_from_rd old idr k (VPoly g cs) x = derivs_from k (VPoly g ds) x.
Proof.
  induction k as [|k IH]; intros g cs ds x H; [reflexivity|]. cbn [derivs_from_rd derivs_from]. unfold vderiv_rd, vderiv. cbn [vgeom vcols].
  destruct (exact_arithmetic old) as (_ & _ & V & _). rewrite V. pose proof (deriv_same g cs ds H) as H'. rewrite (vcall_same _ _ _ x H'). destruct (vcall _ x); [|reflexivity]. cbn [bind]. rewrite (IH _ _ _ x H'). reflexivity.
Qed.
Lemma same_refl g cs : same_cols g cs cs.
Proof. induction cs; constructor; auto. Qed.
Lemma model_exact old q p : power_model_rd old idr q p = power_model q p.
Proof.
  unfold power_model_rd, power_model. destruct p as [g cs]. replace (derivs_rd old idr (VPoly g cs) 1) with (derivs (VPoly g cs) 1); [reflexivity|].
  unfold derivs, derivs_rd. destruct (exact_arithmetic old) as (_ & _ & V & _). rewrite V. cbn [vgeom]. rewrite (derivs_from_same old _ g cs cs 1 (same_refl g cs)). reflexivity.
Qed.
Lemma tail_exact old q p : power_model_rd old idr q p = power_model q p /\
  forall ms l n, tail_rd idr exact_library ms l n = giw (nth l ms []) n.
Proof. split; [apply model_exact|]. intros. apply giw_exact. Qed.

(** * Bases *)
Lemma basis_tail u eta rd pw compute b old F lam ms f ns M l c j n :
  built_rd u eta rd pw compute b -> rounding u eta rd -> 0 < u <= / 10000 -> 0 <= eta -> Rabs (f_pi F - PI) <= u * PI ->
  let g := vgeom (su (bsve b)) in INR (glen g) * u <= / 200 -> loss g (gnseg g - 1) * u <= 1 -> klam (bkernel b) = Some lam ->
  power_model_rd old rd (ffreq (buhat_full b)) (VPoly (fgeom (buhat_full b)) (fcols (buhat_full b))) = Ok ms ->
  (f = buhat_full b \/ f = buhat b) -> ft_call_rd rd F (tail_rd rd F ms) f ns = Ok M ->
  nth_error (vcols (su (bsve b))) l = Some c -> (l < length (fcols f))%nat -> nth_error ns j = Some n ->
  rd (40 * lam) <= Rabs (IZR n) -> n <> 0%Z -> 1000 * eta * Rabs (IZR n) <= u ->
  let c' := Col (fun k i => rd (rd (sqrt (bbeta b)) * cdat c k i)) (csym c) in
  exists v, entry M l j = Some v /\ Cmod (Cminus v (true_tail (ffreq f) g c' l n)) <= tail_error u eta g c' n.
Proof.
  intros Hb Hr Hu He Hp g Hnu Hloss Hl Em Hf Hc El Hlf En Hx Hn Hs c'.
  destruct (full_rd_facts u eta rd pw compute b Hb) as (lam' & Hl' & _ & ((G & Gm & GM & Gf & Go & Gl) & _) & Hi). rewrite Hl in Hl'. injection Hl' as <-.
  destruct (full_rd_shape u eta rd pw compute b Hb) as (Q & _ & _ & _ & Eg & Ea & _). specialize (Ea lam Hl).
  destruct (full_rd_nth u eta rd pw compute b Hb l c El) as (_ & Ec). fold c' in Ec.
  assert (Hgood : good_end u eta g). { repeat (split; [assumption|]). split; [|assumption]. apply Gf. destruct G as (P & _). unfold g. lia. }
  assert (Ff : fgeom f = g /\ ffreq f = ffreq (buhat_full b) /\ fasymp f = Some (rd (40 * lam))).
  { destruct Hf as [-> | ->]; [auto|]. destruct (built_rd_inv u eta rd pw compute b Hb) as (q & e & ms' & lam2 & f0 & _ & _ & _ & _ & _ & _ & _ & _ & _ & _ & _ & Hk & Hq & F0 & F1).
    rewrite Hl in Hk. injection Hk as <-. destruct (ft_slice_some _ _ _ _ (Z.of_nat (length (bs b))) F0) as (f' & E' & X1 & _ & X3 & X4). rewrite E' in F1. injection F1 as <-.
    split; [exact X1|]. split; [|exact X4]. rewrite X3, Q. unfold stat_freq. destruct (even_odd_inv _ _ Hq) as [[-> ->]|[-> ->]]; reflexivity. }
  destruct Ff as (Ff1 & Ff2 & Ff3). destruct (nth_error (fcols f) l) as [c2|] eqn:E2; [|apply nth_error_None in E2; lia].
  fold g in Eg. rewrite Eg in Em. rewrite <- Ff2, <- Ff1 in Em. rewrite <- Ff1. rewrite <- Ff1 in Hgood.
  eapply call_tail; eauto.
Qed.
