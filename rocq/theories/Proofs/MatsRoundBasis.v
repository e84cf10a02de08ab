(** Default sampling frequencies of a basis in rounded arithmetic. *)
From Coq Require Import Reals ZArith Arith Bool Lra Lia String.
From Coquelicot Require Import Coquelicot.
From Coq Require Import List Sorting.Sorted.
From Verif.Model Require Import Base Util IEEE Num Roots Matsubara Poly FT FTIEEE SVE SVEIEEE Basis BasisIEEE NDArray Sampling Defaults DefaultsIEEE TransformIEEE MatsubaraIEEE.
From Verif.Spec Require Import SRoots SMatsubara SPoly SPolyIEEE SFT SSVE SBasis SSampling SDefaults SKernelIEEE SSVEIEEE SFTIEEE SBasisIEEE SMatsubaraIEEE.
From Verif.Proofs Require Import BaseFacts RootsFacts RootsDiscr RootsExtr MatsubaraFacts DefaultMatsubara
  SumFacts FTCall FTProps BasisInit AdapterProps BasisPhys SamplingProps DefaultsFacts DefaultsProps DefaultsSampling FitRound FTRoundProps BasisRound BasisRoundProps BasisRoundMore TransformRoundProps MatsRound.
Import ListNotations.
Open Scope R_scope.
Notation length := List.length.

(** * From searched points to frequencies *)
Section Points.
Variables (f : sampled) (q : freq) (grid : list Z) (po : bool).
Hypothesis (Hf : shaped f) (Hg : search_grid grid).

Lemma spare_end : exists (x0 wn : list Z),
    ends_with (fun fuel => sign_changes_rd fuel q f grid po) (Ok wn) /\
    Forall (fun n => n mod 2 = zeta q)%Z wn /\
    (po = true -> Forall (fun n => 0 <= n)%Z wn) /\ (po = false -> symmetric wn) /\ StronglySorted Z.lt wn /\
    (forall n, (0 <= n)%Z -> In n wn <-> exists x, In x x0 /\ n = (2 * x + zeta q)%Z) /\
    (forall x v, seen f grid x v -> fst v = 0 -> In x x0) /\
    (forall a c va vc, adjacent grid a c -> seen f grid a va -> seen f grid c vc -> fst va * fst vc < 0 ->
       exists x, (In x x0 /\ (a <= x < c)%Z) /\ forall x', In x' x0 -> (a <= x' < c)%Z -> x' = x) /\
    (forall x, In x x0 -> (0 <= x)%Z /\ ((exists v, computed f x v /\ fst v = 0) \/ changes f x)).
Proof.
  destruct Hg as (Hs & Hl & Hp). destruct (find_all_arr_ok f Hf grid Hs) as (rs & (n & Hn) & Hso & Hz & Hi & Hsound).
  assert (Hpos : Forall (fun x => (0 <= x)%Z) rs).
  { rewrite Forall_forall in *. intros r Hr.
    destruct (Hsound r Hr) as [(v & (i & Hin & _) & _)|(a & c & Hab & Hr' & _)].
    - apply Hp, (nth_error_In _ _ Hin).
    - apply adjacent_in_l in Hab. apply Hp in Hab. lia. }
  destruct (finish_strict_ok q po rs Hso Hpos) as (wn & Ewn).
  destruct (finish_props q po rs wn Ewn Hpos) as (P1 & P2 & P3 & P4).
  exists rs, wn. split. { exists n. intros fuel Hfu. unfold sign_changes_rd. rewrite Hn by auto. rewrite Ewn. reflexivity. }
  split; [exact P1|]. split; [exact P2|]. split; [exact P3|]. split; [auto|].
  split. { intros m Hm. apply (finish_in q po rs wn m Ewn Hpos Hm). }
  split; [exact Hz|]. split.
  - intros a c va vc A S1 S2 Hlt. destruct (Hi a c va vc A S1 S2 Hlt) as (r & (R1 & R2 & _) & R3). exists r. auto.
  - intros x Hx. split. { rewrite Forall_forall in Hpos. auto. }
    destruct (Hsound x Hx) as [(v & S1 & E)|(a & c & _ & _ & E)]; [left|right; auto]. exists v. split; [exists grid|]; auto.
Qed.

Variable rd : R -> R.
Definition with_zero (r : res (list Z)) : res (list Z) :=
  do wn <- r; match wn with [] => Raise IndexError | w :: _ => Ok (if (w mod 2 =? 0)%Z then zunique (0%Z :: wn) else wn) end.
Lemma fallback_end y0 y1 yl yl' l1 l2 : grid = y0 :: y1 :: l1 -> grid = l2 ++ [yl'; yl] ->
  exists x0 out, ends_with (fun fuel => extrema_rd rd fuel q f grid po) out /\
    (forall wn, with_zero out = Ok wn ->
       Forall (fun n => n mod 2 = zeta q)%Z wn /\
       (po = true -> Forall (fun n => 0 <= n)%Z wn) /\ (po = false -> symmetric wn) /\
       (q = Even \/ no_double_turn_rd rd f grid -> StronglySorted Z.lt wn) /\
       (forall n, (0 <= n)%Z -> In n wn <-> (n = 0%Z /\ q = Even) \/ exists x, In x x0 /\ n = (2 * x + zeta q)%Z)) /\
    (In y0 x0 <-> outer_max_rd f grid y0 y1) /\ (In yl x0 <-> outer_max_rd f grid yl yl') /\
    (forall a c d, turns_rd rd f grid a c d -> exists r, In r x0 /\ inner_max_rd f a d r) /\
    (forall r, In r x0 -> (0 <= r)%Z /\ (r = y0 \/ r = yl \/ (exists a c d, turns_rd rd f grid a c d /\ inner_max_rd f a d r))) /\
    (no_double_turn_rd rd f grid -> (exists a c d, turns_rd rd f grid a c d) -> exists wn, with_zero out = Ok wn).
Proof.
  intros E1 E2. destruct Hg as (Hs & Hl & Hp).
  destruct (extrema_arr_ok f Hf rd grid y0 y1 yl yl' l1 l2 Hs E1 E2) as (rs & (n & Hn) & A1 & A2 & Hcomp & Hsound & Hord).
  assert (Hpos : Forall (fun x => (0 <= x)%Z) rs).
  { rewrite Forall_forall in *. intros r Hr. destruct (Hsound r Hr) as [->|[->|(a & c & d & ((m1 & m2 & Em) & _) & (g & _ & Hr' & _))]].
    + apply Hp. rewrite E1. left; auto.
    + apply Hp. rewrite E2. apply in_or_app; right; right; left; auto.
    + assert (Ha : In a grid) by (rewrite Em; apply in_or_app; right; left; auto). apply Hp in Ha. lia. }
  exists rs, (finish q po rs).
  split. { exists n. intros fuel Hfu. unfold extrema_rd. rewrite Hn by auto. reflexivity. }
  split; [|split; [exact A1|split; [exact A2|split; [exact Hcomp|split]]]].
  - intros wn' Hw'. unfold with_zero in Hw'. destruct (finish q po rs) as [wn|e] eqn:Ef; cbn [bind] in Hw'; [|discriminate].
    destruct (finish_props q po rs wn Ef Hpos) as (P1 & P2 & P3 & P4).
    pose proof (finish_in q po rs wn) as Fi.
    destruct wn as [|w wn]; [discriminate|].
    assert (Hw : parity_of q w) by (inversion P1; auto). unfold parity_of in Hw.
    injection Hw' as <-. destruct q.
    + rewrite Hw. change (zeta Even =? 0)%Z with true. cbv iota.
      split; [|split; [|split; [|split]]].
      * rewrite Forall_forall in *. intros m Hm. apply zunique_in in Hm as [<-|Hm]; auto. apply P1. exact Hm.
      * intros Hpo. specialize (P2 Hpo). rewrite Forall_forall in *.
        intros m Hm. apply zunique_in in Hm as [<-|Hm]; auto. lia.
      * intros Hpo. apply zunique_zero_symmetric, symmetric_neg_closed; auto.
      * intros _. apply zunique_sorted.
      * intros m Hm. rewrite zunique_in, <- (Fi m Ef Hpos Hm). cbn [In]. intuition congruence.
    + rewrite Hw. change (zeta Odd =? 0)%Z with false. cbv iota.
      split; [|split; [|split; [|split]]]; auto.
      * intros [?|Hnd]; [discriminate|]. auto.
      * intros m Hm. rewrite <- (Fi m Ef Hpos Hm). intuition congruence.
  - intros r Hr. split; [rewrite Forall_forall in Hpos; auto|auto].
  - intros Hnd (a & c & d & Ht). destruct (Hcomp a c d Ht) as (r & Hr & _). specialize (Hord Hnd).
    destruct (finish_strict_ok q po rs Hord Hpos) as (wn & Ewn). unfold with_zero. rewrite Ewn. cbn [bind].
    destruct wn as [|w wn]; [|eauto]. exfalso.
    assert (0 <= r)%Z by (rewrite Forall_forall in Hpos; auto).
    assert (0 <= 2 * r + zeta q)%Z by (unfold zeta; destruct q; lia).
    apply (proj2 (finish_in q po rs [] (2 * r + zeta q)%Z Ewn Hpos ltac:(assumption))). exists r. auto.
Qed.
End Points.

(** * The function that is searched *)
Section Full.
Variables (u eta : R) (rd : R -> R) (pw : R -> Z -> R) (compute : kern -> option R -> res sve_result) (b : basis).
Hypothesis Hb : built_rd u eta rd pw compute b.
Let Fh := buhat_full b.
Let q := stat_freq b.
Let N := length (ss (bsve b)).

Lemma full_rd_facts : exists lam, klam (bkernel b) = Some lam /\ 0 < bbeta b /\ expansion_near u eta (bsve b) /\
  ft_init (full_rd rd (bsve b) (bbeta b)) (ft_of q) (AsympAt (rd (40 * lam))) None = Ok Fh.
Proof.
  destruct Hb as (st & beta & wmax & eps & ms & ker & sve & Hi & He & _).
  destruct (basis_rd_inv u eta rd pw compute st beta wmax eps ms ker sve b Hi He) as (k & r & lam & q' & e & n & f & f' & Pb & _ & _ & _ & Hr & _ & _ & _ & Hl & Hq & _ & _ & Hf & _ & E).
  exists lam. subst b. cbn [bkernel bbeta bsve buhat_full the_basis_rd Fh]. split; [exact Hl|]. split; [exact Pb|]. split; [exact He|].
  replace (ft_of q) with q'; [exact Hf|]. unfold q, stat_freq. cbn [bstat the_basis_rd].
  destruct (even_odd_inv _ _ Hq) as [[-> ->]|[-> ->]]; reflexivity.
Qed.

Lemma full_rd_shape : ffreq Fh = ft_of q /\ length (fcols Fh) = N /\ (0 < N)%nat /\
  fcols Fh = scaled_cols_rd rd (rd (sqrt (bbeta b))) (vcols (su (bsve b))) /\
  fgeom Fh = vgeom (su (bsve b)) /\ (forall lam, klam (bkernel b) = Some lam -> fasymp Fh = Some (rd (40 * lam))) /\
  exists ms, fmodel Fh = Some ms /\ length ms = N.
Proof.
  destruct full_rd_facts as (lam & Hl & _ & (_ & _ & Lu & _ & Hne & _) & Hf).
  pose proof (ft_init_val _ _ _ _ _ Hf) as (G & K & Q & _ & _ & A & Mo & Pm). cbn [full_rd vgeom vcols] in G, K.
  assert (Ln : length (fcols Fh) = N). { rewrite K. unfold scaled_cols_rd. rewrite map_length. exact Lu. }
  split; [exact Q|]. split; [exact Ln|]. split. { unfold N. destruct (ss (bsve b)); [congruence|]. cbn. lia. }
  split; [exact K|]. split; [exact G|]. split. { intros l' Hl'. rewrite Hl in Hl'. injection Hl' as <-. exact A. }
  specialize (Pm ltac:(discriminate) eq_refl). destruct (power_model (ft_of q) (full_rd rd (bsve b) (bbeta b))) as [ms|] eqn:E; [|destruct Pm as (? & ?); discriminate].
  exists ms. split; [exact Mo|]. unfold power_model in E. destruct (derivs _ _) as [d|]; [|discriminate]. cbn [bind] in E.
  destruct (statsign _) as [s|]; [|discriminate]. cbn [bind] in E. injection E as <-. rewrite map_length, seq_length.
  cbn [full_rd vcols]. unfold scaled_cols_rd. rewrite map_length. exact Lu.
Qed.

Lemma full_rd_nth l c : nth_error (vcols (su (bsve b))) l = Some c ->
  (l < N)%nat /\ nth_error (fcols Fh) l = Some (Col (fun k i => rd (rd (sqrt (bbeta b)) * cdat c k i)) (csym c)).
Proof.
  intros E. destruct full_rd_shape as (_ & L & _ & K & _).
  assert (H : nth_error (fcols Fh) l = Some (Col (fun k i => rd (rd (sqrt (bbeta b)) * cdat c k i)) (csym c))).
  { rewrite K. unfold scaled_cols_rd. rewrite nth_error_map, E. reflexivity. }
  split; [|exact H]. rewrite <- L. apply nth_error_Some. congruence.
Qed.

Lemma item_rd (z : Z) k c : nth_error (fcols Fh) k = Some c -> (forall B (m : list B), length m = N -> pyindex m z = nth_error m k) ->
  exists p, ft_item Fh z = Ok p /\ ft_item Fh (Z.of_nat k) = Ok p /\ fcols p = [c] /\ ffreq p = ft_of q /\ fgeom p = fgeom Fh /\ fasymp p = fasymp Fh.
Proof.
  intros Hk Hpy. destruct full_rd_shape as (Q & L & HN & K & G & A & ms & Em & Lm).
  destruct full_rd_facts as (lam & Hl & _ & ((_ & X1 & X2 & _) & _) & _). specialize (A lam Hl).
  assert (Hkn : (k < N)%nat) by (rewrite <- L; apply nth_error_Some; congruence).
  destruct (nth_error ms k) as [m|] eqn:Ek; [|apply nth_error_None in Ek; lia].
  assert (I : forall z', (forall B (m : list B), length m = N -> pyindex m z' = nth_error m k) -> ft_item Fh z' = ft_init (VPoly (fgeom Fh) [c]) (ffreq Fh) (asymp_of (fasymp Fh)) (Some [m])).
  { intros z' H. unfold ft_item. rewrite (H _ _ L), Hk, Em, (H _ _ Lm), Ek. reflexivity. }
  rewrite (I z Hpy), (I (Z.of_nat k) (nat_index b k Hkn)). unfold ft_init. cbn [vgeom vcols]. rewrite G, X1, X2, A.
  assert (T : forall x, Reqb x x = true) by (intros; apply Reqb_true; reflexivity). rewrite !T. cbn [negb orb asymp_of bind].
  eexists. split; [reflexivity|]. split; [reflexivity|]. cbn [fcols ffreq fgeom fasymp]. auto.
Qed.

Variables (Fl : flib) (model : Z -> C) (nz : list Z -> nat -> bool).

Lemma searched_ok (z : Z) k even c : marked (bsve b) k even c -> (forall B (m : list B), length m = N -> pyindex m z = nth_error m k) ->
  exists f, (do p <- ft_item Fh z; searched_rd rd Fl model nz p) = Ok f /\ shaped f /\ uhat_values rd Fl model b k even f.
Proof.
  intros (Ec & Hs) Hpy. destruct (full_rd_nth k c Ec) as (Hk & Ek).
  destruct (item_rd z k _ Ek Hpy) as (p & Ep & Ep' & Cp & Qp & Gp & Ap).
  destruct full_rd_facts as (lam & Hl & _ & ((Gn & _ & _ & _ & Po & Eo) & _) & _). destruct full_rd_shape as (_ & _ & _ & _ & G & _).
  rewrite Ep. cbn [bind]. unfold searched_rd. rewrite Cp, Qp.
  replace (search_freq (ft_of q)) with (Ok q : res freq) by (destruct q; reflexivity). cbn [bind csym].
  assert (G1 : (0 < gorder (fgeom p))%nat /\ (0 < gnseg (fgeom p))%nat /\ glen (fgeom p) = gorder (fgeom p)).
  { rewrite Gp, G. split; [exact Po|]. split; [apply Gn|exact Eo]. }
  destruct G1 as (G1 & G2 & G3).
  set (part := match q, even with Even, true | Odd, false => RealPart | _, _ => ImagPart end).
  replace (func_part (csym c) (ft_zeta (ft_of q))) with (Ok part : res cpart).
  2:{ rewrite Hs. unfold part. destruct even, q; cbn [ft_of ft_zeta]; rewrite func_part_pm by auto; cbn [Z.eqb]; destruct (Rlt_dec 0 _); try reflexivity; lra. }
  cbn [bind].
  destruct (proj1 (call_rd_iff rd Fl (fun _ => model) p [zeta q] G1 G2 G3)) as (M0 & -> & _).
  { rewrite Qp. repeat constructor. apply freq_ok_of. destruct q; reflexivity. }
  cbn [bind]. eexists. split; [reflexivity|].
  assert (Hcall : forall ns, exists row, ft_call_rd rd Fl (fun _ => model) p (map (fun n => 2 * n + zeta q)%Z ns) = Ok [row] /\ length row = length ns).
  { intros ns. destruct (proj1 (call_rd_iff rd Fl (fun _ => model) p (map (fun n => 2 * n + zeta q)%Z ns) G1 G2 G3)) as (M & EM & LM & RM).
    { rewrite Qp. apply Forall_forall. intros m Hm. apply in_map_iff in Hm as (x & <- & _). apply (nu_ok b x). }
    rewrite Cp in LM. destruct M as [|row [|? ?]]; try discriminate. exists row. split; auto. inversion RM; subst. rewrite map_length in *. auto. }
  split.
  - intros ns. destruct (Hcall ns) as (row & -> & Lr). rewrite map_length, combine_length, seq_length. lia.
  - intros x v (l & i & Hi & Hv). destruct (Hcall l) as (row & Er & Lr). cbv beta zeta in Hv. rewrite Er in Hv.
    rewrite nth_error_map, nth_error_combine_seq in Hv. destruct (nth_error row i) as [w|] eqn:Ew; [|discriminate]. cbn [option_map fst snd] in Hv.
    injection Hv as <-. exists p, (map (fun n => 2 * n + zeta q)%Z l), [row], i, w. split; [exact Ep'|]. split; [exact Er|].
    split. { rewrite nth_error_map, Hi. reflexivity. } split. { unfold entry. cbn [nth_error]. exact Ew. }
    cbn [fst]. unfold part, coordinate. fold q. destruct q, even; reflexivity.
Qed.

(** The numbers that are compared are close to the true ones. *)
Lemma coordinate_near e v w : Rabs (coordinate q e v - coordinate q e w) <= Cmod (Cminus v w).
Proof.
  assert (A : Re (Cminus v w) = Re v - Re w) by (unfold Cminus, Cplus, Copp, Re; cbn; ring).
  assert (B : Im (Cminus v w) = Im v - Im w) by (unfold Cminus, Cplus, Copp, Im; cbn; ring).
  unfold coordinate. destruct q, e; rewrite <- ?A, <- ?B; first [apply Cmod_Re_le|apply Cmod_Im_le].
Qed.
Lemma fourier_unique ph h a d v w : is_fourier ph h a d v -> is_fourier ph h a d w -> v = w.
Proof.
  intros (A & B) (C & D).
  pose proof (is_RInt_unique (V:=R_CompleteNormedModule) _ _ _ _ A) as A'. pose proof (is_RInt_unique (V:=R_CompleteNormedModule) _ _ _ _ B) as B'.
  pose proof (is_RInt_unique (V:=R_CompleteNormedModule) _ _ _ _ C) as C'. pose proof (is_RInt_unique (V:=R_CompleteNormedModule) _ _ _ _ D) as D'.
  rewrite A' in C'. rewrite B' in D'. clear A B C D. destruct v, w. unfold Re, Im in *. cbn in *. congruence.
Qed.
Lemma transform_error_pos d th g c n : 0 <= u -> 0 <= eta -> 0 <= d -> 0 <= th -> geom_near u eta g ->
  0 <= transform_error u eta d th g c n.
Proof.
  intros Hu He Hd Ht Hg. unfold transform_error.
  assert (Rn : forall i, (i < gnseg g)%nat -> 0 <= reach (knot g i) (knot g (S i))).
  { intros i Hi. apply reach_pos. destruct Hg as (_ & L & Sg & _). unfold knot. left. apply (PPolyFacts.sorted_nth_lt _ i (Datatypes.S i) Sg); lia. }
  apply Rplus_le_le_0_compat; [|exact Ht]. apply Rplus_le_le_0_compat.
  - apply sumn_nonneg. intros i Hi. apply Rmult_le_pos; [|apply sumn_nonneg; intros; apply Rabs_pos].
    apply Rmult_le_pos; [apply sqrt_pos|]. apply Rplus_le_le_0_compat; [|exact Hd]. specialize (Rn i Hi). pose proof (pos_INR (gnseg g)). pose proof (Rabs_pos (IZR n)).
    apply Rmult_le_pos; [|exact Hu]. apply Rmult_le_pos; [|exact Rn]. apply Rmult_le_pos; [lra|auto].
  - apply Rmult_le_pos; [|exact He]. pose proof (pos_INR (gorder g * gnseg g)). lra.
Qed.

Section Near.
Variables (ej ec um em gam th : R).
Hypothesis (Hrd : rounding u eta rd) (Hu : 0 < u <= / 10000) (He : 0 <= eta).
Hypothesis HF : library_near (gorder (vgeom (su (bsve b)))) (gorder (vgeom (su (bsve b))) * gnseg (vgeom (su (bsve b)))) u ej ec um em gam th Fl.
Hypothesis Hsm : small_library ej ec um em gam.
Hypothesis Hbe : 1000 * eta <= u * sqrt (bbeta b).
Hypothesis Hsg : INR (gnseg (vgeom (su (bsve b)))) * u <= / 200.

Lemma values_near lam k even c f : klam (bkernel b) = Some lam -> marked (bsve b) k even c -> uhat_values rd Fl model b k even f ->
  forall x v w, computed f x v -> true_value b c (rd (40 * lam)) model (nu b x) w ->
  Rabs (fst v - coordinate q even w) <= value_error u eta (constant_error u ej ec um em gam) th b c (nu b x).
Proof.
  intros Hl (Ec & Hs) Hv x v w Hx (T1 & T2). destruct (Hv x v Hx) as (p & ns & M & j & w' & Ep & EM & Ej & Ew & ->).
  destruct (full_rd_nth k c Ec) as (Hk & Ek).
  destruct (item_rd (Z.of_nat k) k _ Ek (nat_index b k Hk)) as (p' & _ & Ep' & Cp & Qp & Gp & Ap). fold Fh in Ep. rewrite Ep in Ep'. injection Ep' as <-.
  destruct full_rd_facts as (lam' & Hl' & Pb & (Su & _) & _). destruct full_rd_shape as (_ & _ & _ & _ & G & A & _).
  specialize (A lam Hl). rewrite A in Ap. rewrite G in Gp.
  pose proof Su as (Gn & _ & _ & _ & Po & Eo).
  eapply Rle_trans; [apply coordinate_near|]. destruct (Rlt_le_dec (Rabs (IZR (nu b x))) (rd (40 * lam))) as [Lt|Ge].
  - destruct (uhat_near u eta rd (bsve b) (bbeta b) ej ec um em gam th Fl (fun _ => model) p ns M 0 c j (nu b x) (rd (40 * lam)) Hrd Hu He Pb Su Hbe Hsg HF Hsm Gp Ap) as (v1 & w1 & E1 & F1 & N1); auto.
    { rewrite Cp. reflexivity. }
    rewrite Ew in E1. injection E1 as <-. rewrite (fourier_unique _ _ _ _ _ _ (T1 Lt) F1). exact N1.
  - rewrite (call_rd_model rd Fl (fun _ => model) p ns M 0 (Col (fun k i => rd (rd (sqrt (bbeta b)) * cdat c k i)) (csym c)) j (nu b x) (rd (40 * lam))) in Ew; auto.
    2:{ rewrite Gp. exact Po. } 2:{ rewrite Gp. apply Gn. } 2:{ rewrite Gp. exact Eo. } 2:{ rewrite Cp. reflexivity. }
    injection Ew as <-. rewrite (T2 Ge). unfold Cminus. rewrite Cplus_opp_r, Cmod_0.
    destruct HF as (J1 & J2 & J3 & J4 & J5 & J6 & _). unfold value_error, uhat_error. apply transform_error_pos; try lra; auto. unfold constant_error. lra.
Qed.

(** How the computed points lie on the true function. *)
Variables (lam : R) (k : nat) (even : bool) (c : col) (f : sampled) (W : Z -> C).
Hypothesis (Hl : klam (bkernel b) = Some lam) (Hm : marked (bsve b) k even c) (Hv : uhat_values rd Fl model b k even f).
Hypothesis HW : forall n, allowed b n -> true_value b c (rd (40 * lam)) model n (W n).
Let X n := coordinate q even (W n).
Let E n := value_error u eta (constant_error u ej ec um em gam) th b c n.

Lemma nu_allowed x : allowed b (nu b x).
Proof. unfold allowed, nu. apply shift_parity. Qed.
Lemma near x v : computed f x v -> Rabs (fst v - X (nu b x)) <= E (nu b x).
Proof. intros H. apply (values_near lam k even c f Hl Hm Hv x v); auto. apply HW, nu_allowed. Qed.

Lemma same_sign x v : computed f x v -> E (nu b x) < Rabs (X (nu b x)) -> 0 < X (nu b x) * fst v.
Proof.
  intros H L. pose proof (near x v H) as D. revert D L. generalize (X (nu b x)) (E (nu b x)) (fst v). intros a e y D L.
  apply Rabs_le_between in D. revert L. unfold Rabs. destruct (Rcase_abs a); intros L; nra.
Qed.
Lemma hit_located x v : computed f x v -> fst v = 0 -> Rabs (X (nu b x)) <= E (nu b x).
Proof. intros H E0. pose proof (near x v H) as D. rewrite E0 in D. rewrite <- Rabs_Ropp. replace (- X (nu b x)) with (0 - X (nu b x)) by ring. exact D. Qed.
Lemma change_located x : changes f x ->
  Rabs (X (nu b x)) <= E (nu b x) \/ Rabs (X (nu b x + 2)%Z) <= E (nu b x + 2)%Z \/ X (nu b x) * X (nu b x + 2)%Z < 0.
Proof.
  intros (v & w & Cv & Cw & H). replace (nu b x + 2)%Z with (nu b (x + 1)) by (unfold nu; ring).
  destruct (Rle_lt_dec (Rabs (X (nu b x))) (E (nu b x))) as [|L1]; [auto|].
  destruct (Rle_lt_dec (Rabs (X (nu b (x + 1)))) (E (nu b (x + 1)))) as [|L2]; [auto|]. right. right.
  pose proof (same_sign x v Cv L1) as S1. pose proof (same_sign _ w Cw L2) as S2. revert S1 S2. generalize (X (nu b x)) (X (nu b (x + 1))). intros p r S1 S2.
  assert (Nv : fst v * fst w < 0).
  { assert (fst v <> 0) by (intros Z0; rewrite Z0 in S1; lra). assert (fst w <> 0) by (intros Z0; rewrite Z0 in S2; lra).
    unfold negative in H. destruct H as [(A & B)|(A & B)].
    - destruct A as [A|[A _]]; [|contradiction]. assert (0 < fst w) by (destruct (Rtotal_order (fst w) 0) as [?|[?|?]]; [exfalso; apply B; auto|contradiction|auto]). nra.
    - destruct B as [B|[B _]]; [|contradiction]. assert (0 < fst v) by (destruct (Rtotal_order (fst v) 0) as [?|[?|?]]; [exfalso; apply A; auto|contradiction|auto]). nra. }
  assert (0 < (p * fst v) * (r * fst w)) by nra. replace ((p * fst v) * (r * fst w)) with (p * r * (fst v * fst w)) in H0 by ring. nra.
Qed.
Lemma opposite_seen a d va vd : computed f a va -> computed f d vd -> E (nu b a) < Rabs (X (nu b a)) -> E (nu b d) < Rabs (X (nu b d)) ->
  X (nu b a) * X (nu b d) < 0 -> fst va * fst vd < 0.
Proof.
  intros C1 C2 L1 L2 H. pose proof (same_sign a va C1 L1) as S1. pose proof (same_sign d vd C2 L2) as S2. revert S1 S2 H. generalize (X (nu b a)) (X (nu b d)). intros p r S1 S2 H.
  assert (0 < (p * fst va) * (r * fst vd)) by nra. replace ((p * fst va) * (r * fst vd)) with (p * r * (fst va * fst vd)) in H0 by ring. nra.
Qed.
Lemma max_located a d r : inner_max_rd f a d r -> (a < r < d)%Z /\
  forall m, (m = r - 1 \/ m = r + 1)%Z -> (a < m < d)%Z -> Rabs (X (nu b m)) <= Rabs (X (nu b r)) + E (nu b r) + E (nu b m).
Proof.
  intros (g & Hg & H1 & H2 & H3). split; [exact H1|]. intros m Hm' Ha.
  assert (D : forall x, Rabs (g x - X (nu b x)) <= E (nu b x)).
  { intros x. destruct (Hg x) as (s & Es). apply (near x (g x, s)). exists [x], 0%nat. rewrite Es. auto. }
  assert (L : Rabs (g m) <= Rabs (g r)). { destruct Hm' as [-> | ->]; [apply H3; lia|]. left. apply H2. lia. }
  pose proof (D m) as Dm. pose proof (D r) as Dr. revert L Dm Dr. generalize (g m) (g r) (X (nu b m)) (X (nu b r)) (E (nu b m)) (E (nu b r)). intros x y p s e1 e2 L Dm Dr.
  pose proof (Rabs_triang_inv p x) as T1. pose proof (Rabs_triang_inv y s) as T2. rewrite Rabs_minus_sym in T1. lra.
Qed.
End Near.

(** * Default points *)
Variables (grid : list Z) (L : nat) (po : bool).
Hypothesis Hgr : search_grid grid.
Let lr := l_requested q L.

Lemma default_unfold fuel f z : z = (if (lr <? N)%nat then Z.of_nat lr else (-1)%Z) ->
  (do p <- ft_item Fh z; searched_rd rd Fl model nz p) = Ok f ->
  basis_matsubara_rd rd Fl model nz fuel grid b (Some L) po =
  after (if (lr <? N)%nat then sign_changes_rd fuel q f grid po
         else after (extrema_rd rd fuel q f grid po) (fun wn => Some (with_zero (Ok wn)))) (fun wn =>
    Some (Ok (wn, negb (length wn =? (if po then Nat.div (lr + 1) 2 else lr))%nat))).
Proof.
  intros Ez Ef. destruct full_rd_shape as (Q & Ln & _). unfold basis_matsubara_rd, uhat_default_rd. fold Fh. rewrite Q.
  replace (search_freq (ft_of q)) with (Ok q : res freq) by (destruct q; reflexivity). cbn [after]. rewrite Ln. fold lr. rewrite <- Ez, Ef. reflexivity.
Qed.

Lemma spare_rd even c : (lr < N)%nat -> marked (bsve b) lr even c ->
  exists f wn, let w := negb (length wn =? (if po then Nat.div (lr + 1) 2 else lr))%nat in
    shaped f /\ uhat_values rd Fl model b lr even f /\
    ends_with (fun fuel => basis_matsubara_rd rd Fl model nz fuel grid b (Some L) po) (Ok (wn, w)) /\
    Forall (allowed b) wn /\
    (po = true -> Forall (fun n => 0 <= n)%Z wn) /\ (po = false -> symmetric wn) /\ StronglySorted Z.lt wn /\
    (forall n, In n wn -> (0 <= n)%Z -> exists x, n = nu b x /\ ((exists v, computed f x v /\ fst v = 0) \/ changes f x)) /\
    (forall x v, seen f grid x v -> fst v = 0 -> In (nu b x) wn) /\
    (forall a d va vd, adjacent grid a d -> seen f grid a va -> seen f grid d vd -> fst va * fst vd < 0 ->
       exists n, (In n wn /\ (nu b a <= n < nu b d)%Z) /\ forall n', In n' wn -> (nu b a <= n' < nu b d)%Z -> n' = n).
Proof.
  intros Hlr Hm. destruct (searched_ok (Z.of_nat lr) lr even c Hm (nat_index b lr Hlr)) as (f & Ef & Hf & Hv).
  destruct (spare_end f q grid po Hf Hgr) as (x0 & wn & Hend & P1 & P2 & P3 & P4 & Hin & Hz & Hi & Hs).
  exists f, wn. cbv zeta. split; [exact Hf|]. split; [exact Hv|].
  assert (Hpos : forall x, In x grid -> (0 <= x)%Z) by (destruct Hgr as (_ & _ & G3); rewrite Forall_forall in G3; exact G3).
  assert (Hnu : forall x, (0 <= x)%Z -> (0 <= nu b x)%Z) by (intros x Hx; unfold nu, zeta; destruct (stat_freq b); lia).
  assert (Hw : forall x, (0 <= x)%Z -> In (nu b x) wn <-> In x x0).
  { intros x Hx. rewrite (Hin _ (Hnu x Hx)). unfold nu. fold q. split.
    - intros (y & Hy & E). replace x with y by lia. exact Hy.
    - intros H. exists x. auto. }
  split.
  { revert Hend. apply ends_map. intros fuel Hr. rewrite (default_unfold fuel f (Z.of_nat lr)); auto.
    - rewrite (proj2 (Nat.ltb_lt lr N) Hlr), Hr. reflexivity.
    - rewrite (proj2 (Nat.ltb_lt lr N) Hlr). reflexivity. }
  split; [exact P1|]. split; [exact P2|]. split; [exact P3|]. split; [exact P4|]. split; [|split].
  - intros n Hn H0. apply (Hin n H0) in Hn as (x & Hx & ->). exists x. split; [reflexivity|]. apply (Hs x Hx).
  - intros x v Hx E. apply Hw; [|apply (Hz x v); auto]. destruct Hx as (i & Hi' & _). apply Hpos, (nth_error_In _ _ Hi').
  - intros a d va vd Had S1 S2 Hop. destruct (Hi a d va vd Had S1 S2 Hop) as (x & (X1 & X2) & X3). exists (nu b x).
    assert (Ha : (0 <= a)%Z) by (apply Hpos, (adjacent_in_l _ _ _ Had)).
    split; [split; [apply Hw; [lia|exact X1]|unfold nu; lia]|].
    intros n' Hn' Hr. assert (H0 : (0 <= n')%Z) by (pose proof (Hnu a Ha); lia).
    apply (Hin n' H0) in Hn' as (y & Hy & ->). change (2 * y + zeta q)%Z with (nu b y) in *. f_equal. apply X3; auto. unfold nu in Hr. lia.
Qed.

Lemma fallback_rd even c : (N <= lr)%nat -> marked (bsve b) (N - 1) even c ->
  exists f out, shaped f /\ uhat_values rd Fl model b (N - 1) even f /\
    ends_with (fun fuel => basis_matsubara_rd rd Fl model nz fuel grid b (Some L) po) out /\
    (forall wn w, out = Ok (wn, w) ->
       Forall (allowed b) wn /\
       (po = true -> Forall (fun n => 0 <= n)%Z wn) /\ (po = false -> symmetric wn) /\
       (stat_freq b = Even \/ no_double_turn_rd rd f grid -> StronglySorted Z.lt wn) /\
       (w = true <-> length wn <> (if po then Nat.div (lr + 1) 2 else lr)) /\
       forall y0 y1 yl yl' l1 l2, grid = y0 :: y1 :: l1 -> grid = l2 ++ [yl'; yl] ->
       exists x0, (forall n, (0 <= n)%Z -> In n wn <-> (n = 0%Z /\ stat_freq b = Even) \/ exists x, In x x0 /\ n = nu b x) /\
         (In y0 x0 <-> outer_max_rd f grid y0 y1) /\ (In yl x0 <-> outer_max_rd f grid yl yl') /\
         (forall a e d, turns_rd rd f grid a e d -> exists r, In r x0 /\ inner_max_rd f a d r) /\
         (forall r, In r x0 -> (0 <= r)%Z /\ (r = y0 \/ r = yl \/ (exists a e d, turns_rd rd f grid a e d /\ inner_max_rd f a d r)))) /\
    (no_double_turn_rd rd f grid -> (exists a e d, turns_rd rd f grid a e d) -> exists wn w, out = Ok (wn, w)).
Proof.
  intros Hlr Hm. destruct full_rd_shape as (_ & _ & HN & _).
  destruct (searched_ok (-1)%Z (N - 1) even c Hm (last_index b HN)) as (f & Ef & Hf & Hv).
  pose proof Hgr as (_ & Hl2 & _). destruct (grid_ends grid Hl2) as (z0 & z1 & zl & zl' & k1 & k2 & E1 & E2).
  destruct (fallback_end f q grid po Hf Hgr rd z0 z1 zl zl' k1 k2 E1 E2) as (x0 & out & (n0 & Hend) & H1 & A1 & A2 & A3 & A4 & A5).
  exists f, (do wn <- with_zero out; Ok (wn, negb (length wn =? (if po then Nat.div (lr + 1) 2 else lr))%nat)).
  split; [exact Hf|]. split; [exact Hv|]. assert (Hn : (lr <? N)%nat = false) by (apply Nat.ltb_ge; lia).
  split. { exists n0. intros fuel Hfu. rewrite (default_unfold fuel f (-1)%Z); auto; [|rewrite Hn; reflexivity]. rewrite Hn, (Hend fuel Hfu).
    destruct out as [wn|e]; [|reflexivity]. cbn [after]. destruct (with_zero (Ok wn)); reflexivity. }
  split.
  - intros wn w Eo. destruct (with_zero out) as [wn'|] eqn:Ew; [|discriminate]. cbn [bind] in Eo. injection Eo as -> <-.
    destruct (H1 wn eq_refl) as (P1 & P2 & P3 & P4 & P5).
    split; [exact P1|]. split; [exact P2|]. split; [exact P3|]. split; [exact P4|]. split. { rewrite negb_true_iff, Nat.eqb_neq. tauto. }
    intros y0 y1 yl yl' l1 l2 G1 G2. exists x0. split; [exact P5|].
    rewrite G1 in E1. injection E1 as <- <- _. rewrite G2 in E2.
    assert (yl = zl /\ yl' = zl') as [<- <-].
    { apply (f_equal (@rev _)) in E2. rewrite !rev_app_distr in E2. cbn in E2. injection E2. auto. }
    auto.
  - intros Hnd Ht. destruct (A5 Hnd Ht) as (wn & ->). cbn [bind]. eauto.
Qed.

Lemma unmarked_rd fuel : unmarked (bsve b) (if (lr <? N)%nat then lr else (N - 1)%nat) ->
  basis_matsubara_rd rd Fl model nz fuel grid b (Some L) po = Some (Raise ValueError).
Proof.
  intros (c & Ec & Hs). destruct full_rd_shape as (HQ & HK & HN & _).
  set (k := if (lr <? N)%nat then lr else (N - 1)%nat) in *.
  set (z := if (lr <? N)%nat then Z.of_nat lr else (-1)%Z).
  assert (Hpy : forall B (m : list B), length m = N -> pyindex m z = nth_error m k).
  { unfold k, z. destruct (lr <? N)%nat eqn:E.
    - apply Nat.ltb_lt in E. apply nat_index; auto.
    - apply last_index; auto. }
  destruct (full_rd_nth k c Ec) as (Hk & Ek). destruct (item_rd z k _ Ek Hpy) as (p & Ep & _ & Cp & Qp & _).
  unfold basis_matsubara_rd, uhat_default_rd. fold Fh. rewrite HQ. replace (search_freq (ft_of q)) with (Ok q : res freq) by (destruct q; reflexivity).
  cbn [after]. rewrite HK. fold lr. fold z. rewrite Ep. cbn [bind]. unfold searched_rd. rewrite Cp, Qp.
  replace (search_freq (ft_of q)) with (Ok q : res freq) by (destruct q; reflexivity). cbn [bind csym].
  replace (func_part (csym c) (ft_zeta (ft_of q))) with (Raise ValueError : res cpart); [reflexivity|].
  unfold func_part. rewrite Hs.
  assert (C1 : close 0 1 = false). { unfold close. apply Rleb_false. replace (0 - 1) with (-1) by ring. rewrite Rabs_R1, Rabs_left by lra. lra. }
  assert (C2 : close 0 (-1) = false). { unfold close. apply Rleb_false. replace (0 - -1) with 1 by ring. rewrite Rabs_R1, Rabs_left by lra. lra. }
  rewrite C1, C2. reflexivity.
Qed.
End Full.
