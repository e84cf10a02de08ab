(** Bases computed from scratch in rounded arithmetic (C99). *)
From Coq Require Import String ZArith Arith Bool Reals Lra Lia Psatz.
From Coquelicot Require Import Coquelicot.
From Coq Require Import List Sorting.Sorted Sorting.Permutation.
From Verif.Model Require Import Base Util Num Gauss Poly PolyIEEE FT FTIEEE SVE Basis Kernel KernelIEEE GaussIEEE Compute Whole SVEIEEE BasisIEEE WholeIEEE.
From Verif.Spec Require Import SGauss SPoly SFT SSVE SBasis SKernel SCompute SSingular SWhole SNear SComputed SKernelIEEE SGaussIEEE SPolyIEEE SFTIEEE SRounded SSVEIEEE SRoundedCompute SBasisIEEE SWholeIEEE.
From Verif.Proofs Require Import BaseFacts SumFacts PPolyFacts GaussFacts SVEFacts BasisFacts BasisInit BasisProps BasisPhys WholeFacts WholeBasis ComputeNodes ComputeError ComputeFull ComputedBasis AugmentFacts CoefExact CoefFun ComputeRound ComputeRoundSymm BasisRound BasisRoundProps BasisRoundMore WholeRoundExp WholeRound.
Import ListNotations.
Open Scope R_scope.
Notation length := List.length.

Lemma version_uhat u eta rd pw compute compute' b b0 ej ec um em gam th F model ns M l h j n lam :
  rounding u eta rd -> 0 < u <= / 10000 -> 0 <= eta -> built_rd u eta rd pw compute b -> exact_version compute' b b0 -> let g := vgeom (su (bsve b)) in
  1000 * eta <= u * sqrt (bbeta b) -> INR (gnseg g) * u <= / 200 ->
  library_near (gorder g) (gorder g * gnseg g) u ej ec um em gam th F -> small_library ej ec um em gam ->
  klam (bkernel b) = Some lam -> ft_call_rd rd F model (buhat b) ns = Ok M ->
  represents (bu b0) l h -> nth_error ns j = Some n -> Rabs (IZR n) < rd (40 * lam) ->
  exists c v w, nth_error (vcols (bu b0)) l = Some c /\ entry M l j = Some v /\
    is_fourier (fun t => PI * IZR n * t / bbeta b) h 0 (bbeta b) w /\
    Cmod (Cminus v w) <= uhat_error u eta (constant_error u ej ec um em gam) th (bbeta b) g c n.
Proof.
  intros Hrd Hu He Hb H0 g Fb Fn HF Hs Kl HM Hh Hn Hx.
  destruct (version_inv u eta rd pw compute compute' b Hb b0 H0) as (B & _ & Eb & Ew & Ek & Es & En).
  destruct (u_from compute' b0 B l h Hh) as (Hl & f & Hf & Ef). rewrite Eb in Ef. rewrite Es in Hf. rewrite En in Hl.
  destruct (built_rd_inv u eta rd pw compute b Hb) as (q & e & ms & lam' & f1 & Pb & Pw & Ex & Hln & _). pose proof (ideal_ok _ _ _ Ex) as ((Gu & Ou & Lo) & _ & U1 & U2 & _ & _ & Lu & _).
  apply represents_cval in Hf; auto; [|lia|cbn [ideal_sve ss] in Lu; lia]. destruct Hf as (c & Ec & Hc). rewrite U1, U2 in Hc. cbn [ideal_sve su ideal vcols vgeom] in Ec, Hc. fold g in Hc.
  destruct (rd_uhat u eta rd pw compute b ej ec um em gam th F model ns M l c j n lam Hrd Hu He Hb Fb Fn HF Hs Kl HM Hl Ec Hn Hx) as (v & w & E1 & E2 & E3).
  exists c, v, w. split; [|split; [exact E1|split; [|exact E3]]].
  - rewrite (bu_eq compute' b0 B), Es, En. cbn [vcols]. rewrite nth_error_firstn by exact Hl. exact Ec.
  - eapply is_fourier_ext_in; [lra| |exact E2]. intros t Ht. cbv beta. fold g.
    assert (-1 <= 2 * t / bbeta b - 1 <= 1). { assert (E : 0 <= t / bbeta b <= 1). { split; [apply Rmult_le_pos; [lra|left; apply Rinv_0_lt_compat; lra]|]. apply (Rmult_le_reg_r (bbeta b)); [lra|]. replace (t / bbeta b * bbeta b) with t by (field; lra). lra. } replace (2 * t / bbeta b) with (2 * (t / bbeta b)) by (field; lra). lra. }
    rewrite Hc by assumption. rewrite <- Ef by assumption. f_equal. field. lra.
Qed.

(** * From the constructor to its parts *)
Lemma init_rd_parts rd pw compute st beta wmax eps ms ker sve b : basis_init_rd rd pw compute st beta wmax eps ms ker sve = Ok b ->
  exists k, 0 < beta /\ 0 <= wmax /\ get_kernel_rd rd st (rd (beta * wmax)) ker = Ok k /\
  match sve with Some r' => Ok r' | None => compute k eps end = Ok (bsve b) /\ ss (bsve b) <> [] /\
  bstat b = st /\ bbeta b = beta /\ bwmax b = wmax /\ bkernel b = k.
Proof.
  intros H. unfold basis_init_rd in H.
  destruct (Rltb 0 beta) eqn:Eb; [|discriminate]. apply Rltb_true in Eb. cbn [negb] in H.
  destruct (Rleb 0 wmax) eqn:Ew; [|discriminate]. apply Rleb_true in Ew. cbn [negb] in H.
  destruct (get_kernel_rd _ _ _ _) as [k|] eqn:Ek; [|discriminate]. cbn [bind] in H.
  destruct (match sve with Some r' => Ok r' | None => compute k eps end) as [r|] eqn:Er; [|discriminate]. cbn [bind] in H.
  destruct (part_rd rd r eps ms) as [[[u s] v]|] eqn:Ep; [|discriminate]. cbn [bind] in H.
  assert (Hne : ss r <> []). { unfold part_rd in Ep. destruct (ss r); [discriminate|congruence]. }
  destruct (match s with [] => _ | _ :: _ => _ end) as [acc|]; [|discriminate]. cbn [bind] in H.
  destruct (rescaled_rd rd u _ _) as [u'|]; [|discriminate]. cbn [bind] in H. destruct (rescaled_rd rd v _ _) as [v'|]; [|discriminate]. cbn [bind] in H.
  destruct (klam k); [|discriminate]. destruct (even_odd st); [|discriminate]. cbn [bind] in H.
  destruct (ft_init _ _ _ _); [|discriminate]. cbn [bind] in H. destruct (ft_slice _ _); [|discriminate]. cbn [bind] in H. injection H as <-.
  exists k. cbn [bsve bstat bbeta bwmax bkernel]. auto 9.
Qed.

Lemma get_kernel_rd_used rd st L KO k : get_kernel_rd rd st L (option_map kern_of KO) = Ok k -> k = kern_of (used_kernel L KO).
Proof.
  unfold get_kernel_rd. destruct (negb (stat_in st)); [discriminate|]. destruct KO as [K|]; cbn; [destruct (lam_close_rd rd (k_lambda K) L); [|discriminate]|]; intros H; injection H as <-; reflexivity.
Qed.

Lemma init_rd_given rd pw compute st beta wmax eps ms ker r : basis_init_rd rd pw (fun _ _ => Ok r) st beta wmax eps ms ker None = basis_init_rd rd pw compute st beta wmax eps ms ker (Some r).
Proof. reflexivity. Qed.

Section New.
Variables (have_xprec have_gejsv : bool) (dd : R) (old : bool).
Variable rd : dtype -> R -> R.
Variable ro : R -> R.
Variable pw : R -> Z -> R.
Variable f : dtype -> tfun.
Variable dot : bool -> bool -> nat -> nat -> nat -> list R -> list R -> R.
Variable legendre : dtype -> nat -> res rule.
Variable run : svd_alg -> matrix -> Z -> usv.
Variable argsort : list R -> list nat.
Notation compute_rd := (compute_rd have_xprec have_gejsv dd old rd ro f dot legendre run argsort).
Notation new_basis_rd := (new_basis_rd have_xprec have_gejsv dd old rd ro pw f dot legendre run argsort).

Lemma new_rd_parts st beta wmax eps ms KO b : new_basis_rd st beta wmax eps ms KO = Ok (Some b) ->
  exists r, compute_rd (used_kernel (ro (beta * wmax)) KO) (option_map Fin eps) None None None None None None = Ok (Some r) /\
  forall compute, basis_init_rd ro pw compute st beta wmax eps ms (option_map kern_of KO) (Some r) = Ok b.
Proof.
  unfold WholeIEEE.new_basis_rd. intros H. destruct (negb _); [discriminate|]. destruct (negb _); [discriminate|]. destruct (get_kernel_rd _ _ _ _); [|discriminate]. cbn [bind] in H.
  destruct (compute_rd _ _ _ _ _ _ _ _) as [[r|]|]; try discriminate. cbn [bind] in H.
  destruct (basis_init_rd _ _ _ _ _ _ _ _ _ _) as [b'|] eqn:E; [|discriminate]. cbn [bind] in H. injection H as ->. exists r. split; [reflexivity|]. intros c. rewrite <- E. reflexivity.
Qed.

Lemma new_rd_iff st beta wmax eps ms KO b c : new_basis_rd st beta wmax eps ms KO = Ok (Some b) <->
  exists r, compute_rd (used_kernel (ro (beta * wmax)) KO) (option_map Fin eps) None None None None None None = Ok (Some r) /\
    basis_init_rd ro pw c st beta wmax eps ms (option_map kern_of KO) (Some r) = Ok b.
Proof.
  split; [intros H; destruct (new_rd_parts _ _ _ _ _ _ _ H) as (r & H1 & H2); eauto|].
  intros (r & Hc & Hi). pose proof (init_rd_parts _ _ _ _ _ _ _ _ _ _ _ Hi) as (k & Pb & Pw & Hk & _).
  unfold WholeIEEE.new_basis_rd. rewrite (proj2 (Rltb_true _ _) Pb), (proj2 (Rleb_true _ _) Pw). cbn [negb]. rewrite Hk. cbn [bind]. rewrite Hc. cbn [bind].
  rewrite (init_rd_given _ _ c), Hi. reflexivity.
Qed.

Variables (stat : string) (beta wmax : R) (eps' : option R) (ms : option pynum) (KO : option kernel).
Variables (c c' : kern -> option R -> res sve_result).
Let K := used_kernel (ro (beta * wmax)) KO.
Variables (eps cutoff : option xr) (n_sv : option pynum) (ng : option nat) (work : option dtype) (st : option strat) (svds : option string) (r : sve_result) (b : basis).
Hypothesis Hc : compute_rd K eps cutoff n_sv ng work st svds = Ok (Some r).
Hypothesis Hi : basis_init_rd ro pw c stat beta wmax eps' ms (option_map kern_of KO) (Some r) = Ok b.
Hypothesis Hsort : forall s, sorts s (argsort s).
Hypothesis Hw : 0 < wmax.

Lemma new_named : 0 < beta /\ bsve b = r /\ ss r <> [] /\ bstat b = stat /\ bbeta b = beta /\ bwmax b = wmax /\ bkernel b = kern_of K.
Proof.
  destruct (init_rd_parts _ _ _ _ _ _ _ _ _ _ _ Hi) as (k & Pb & _ & Hk & Er & Hne & E1 & E2 & E3 & E4). injection Er as Er. rewrite <- Er in Hne. rewrite <- Er.
  apply get_kernel_rd_used in Hk. subst k. auto 8.
Qed.

Lemma new_built u eta : / 10 ^ 90 <= u <= / 10000 -> 0 <= eta -> eta * 10 ^ 300 <= u -> rounding u eta ro -> (forall x y, x <= y -> ro x <= ro y) ->
  (forall t, rounding u eta (rd t)) -> 0 < k_lambda K <= 10 ^ 16 -> decompositions_shaped rd f legendre run K ->
  fair_cutoff have_xprec eta dd cutoff work (nth 0 (ss r) 0) -> built_rd u eta ro pw c b.
Proof.
  intros Hu He Heu Hro Hm Hrd HK Hsh Hf. destruct new_named as (_ & Er & Hne & _).
  assert (Ex : expansion_near u eta r).
  { destruct st as [[]|].
    - eapply (expansion_sample have_xprec have_gejsv dd old rd ro f dot legendre run argsort u eta); eauto.
    - eapply (expansion_symm have_xprec have_gejsv dd old rd ro f dot legendre run argsort u eta); eauto. discriminate.
    - eapply (expansion_symm have_xprec have_gejsv dd old rd ro f dot legendre run argsort u eta); eauto. discriminate. }
  unfold built_rd. do 7 eexists. split; [exact Hi|]. rewrite Er. auto.
Qed.

Variables (u0 eta0 : R).
Hypothesis Hb : built_rd u0 eta0 ro pw c b.
Variable b0 : basis.
Hypothesis H0 : exact_version c' b b0.

Lemma version_named : built c' b0 /\ bsve b0 = ideal_sve r /\ bbeta b0 = beta /\ bwmax b0 = wmax /\ kyp (bkernel b0) = k_ypower K.
Proof.
  destruct (version_inv u0 eta0 ro pw c c' b Hb b0 H0) as (B & _ & Eb & Ew & Ek & Es & En). destruct new_named as (_ & Er & _ & _ & E2 & E3 & E4).
  rewrite Er in Es. rewrite E4 in Ek. split; [exact B|]. split; [exact Es|]. split; congruence || split; congruence || exact Ek.
Qed.

Lemma version_near GX GY k D all a d q n : usual_cutoff K -> ordinary_rule n q -> piecewise q (segments_x K) = Ok GX -> piecewise q (segments_y K) = Ok GY ->
  near_best GX GY k (ideal_sve r) D all /\ nearly_orthonormal_functions (su (ideal_sve r)) a /\ nearly_orthonormal_functions (sv (ideal_sve r)) d ->
  near_best_of_its_size (reseat GX 0 beta) (reseat GY (- wmax) wmax) (in_physical k (k_ypower K) beta wmax) b0
    (physical_factor beta wmax (k_ypower K) * D) (Rsqr (physical_factor beta wmax (k_ypower K)) * all) /\
  nearly_orthonormal_functions (bu b0) a /\ nearly_orthonormal_functions (bv b0) d.
Proof.
  intros HK Hq HX HY (Q1 & Q2 & Q3). destruct version_named as (B & Es & E2 & E3 & E4).
  assert (Hl : 0 < k_lambda K). { destruct HK as [HK _]. assert (0 < / 10 ^ 50) by (apply Rinv_0_lt_compat, pow_lt; lra). lra. }
  destruct (valid_of K Hl) as [Vx Vy].
  assert (Gq : gauss_ok n q) by apply Hq.
  destruct (segs_rule _ _ _ _ Gq Vx HX) as (A1 & A2 & A3). destruct (segs_rule _ _ _ _ Gq Vy HY) as (B1 & B2 & B3).
  rewrite <- Es in Q1, Q2, Q3. split; [|split].
  - pose proof (phys_near c' b0 B GX GY k A1 A2 B1 B2 A3 B3 _ _ Q1) as Q. rewrite E2, E3, E4 in Q. exact Q.
  - exact (phys_nearly_u c' b0 B _ Q2).
  - exact (phys_nearly_v c' b0 B _ Q3).
Qed.
End New.

Lemma new_exact have_xprec have_gejsv dd old f legendre run argsort st beta wmax eps ms KO :
  new_basis_rd have_xprec have_gejsv dd old (fun _ t => t) (fun t => t) powerRZ (fun _ => f) (fun _ _ _ _ _ => exact_dot) legendre run argsort st beta wmax eps ms KO =
  new_basis have_xprec have_gejsv dd f legendre run argsort st beta wmax eps ms KO.
Proof.
  unfold new_basis_rd, new_basis. destruct (negb _); [reflexivity|]. destruct (negb _); [reflexivity|].
  assert (E : forall ker, get_kernel_rd (fun x => x) st (beta * wmax) ker = get_kernel st (beta * wmax) ker).
  { intros ker. unfold get_kernel_rd, get_kernel. destruct (negb _); [reflexivity|]. destruct ker as [k|]; [|reflexivity]. destruct (klam k); [|reflexivity]. unfold lam_close_rd, lam_close. rewrite Rplus_0_l. reflexivity. }
  rewrite E, compute_exact. destruct (get_kernel _ _ _); [|reflexivity]. cbn [bind]. destruct (compute _ _ _ _ _ _ _ _ _ _ _ _ _ _ _) as [[r|]|]; try reflexivity. cbn [bind]. rewrite init_exact. reflexivity.
Qed.
