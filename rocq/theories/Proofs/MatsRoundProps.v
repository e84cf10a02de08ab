(** Theorems about default sampling frequencies in rounded arithmetic. *)
From Coq Require Import Reals ZArith Arith Bool Lra Lia String.
From Coquelicot Require Import Coquelicot.
From Coq Require Import List Sorting.Sorted.
From Verif.Model Require Import Base Util IEEE Num Roots Matsubara Poly FT FTIEEE SVE SVEIEEE Basis BasisIEEE NDArray Sampling Defaults DefaultsIEEE TransformIEEE MatsubaraIEEE.
From Verif.Spec Require Import SRoots SMatsubara SPoly SPolyIEEE SFT SSVE SBasis SSampling SDLR SDefaults SKernelIEEE SSVEIEEE SFTIEEE SBasisIEEE SMatsubaraIEEE.
From Verif.Proofs Require Import BaseFacts RootsFacts RootsDiscr RootsExtr MatsubaraFacts DefaultMatsubara KernelRoundCall
  SumFacts FTCall FTProps BasisInit AdapterProps BasisPhys SamplingProps DefaultsFacts DefaultsProps DefaultsSampling FitRound PolyRound FTFacts FTRound FTRoundProps BasisRound BasisRoundProps BasisRoundMore BasisRoundDouble TransformRoundProps
  OpsRoundMore SVEPolicy PPolyExamples MatsRound MatsRoundBasis.
Import ListNotations.
Open Scope R_scope.
Notation length := List.length.

(** * Where the points lie on the true function *)
Section Located.
Variables (u eta : R) (rd : R -> R) (pw : R -> Z -> R) (compute : kern -> option R -> res sve_result) (b : basis).
Hypothesis Hb : built_rd u eta rd pw compute b.
Variables (F : flib) (model : Z -> C) (nz : list Z -> nat -> bool) (ej ec um em gam th : R).
Hypothesis Ha : accurate_search u eta rd b F ej ec um em gam th.

Lemma values_true lam k even c f : klam (bkernel b) = Some lam -> marked (bsve b) k even c -> uhat_values rd F model b k even f ->
  forall x v w, computed f x v -> true_value b c (rd (40 * lam)) model (nu b x) w ->
  Rabs (fst v - coordinate (stat_freq b) even w) <= value_error u eta (constant_error u ej ec um em gam) th b c (nu b x).
Proof. destruct Ha as (A1 & A2 & A3 & A4 & A5 & A6 & A7). intros. eapply values_near; eauto. Qed.

Lemma located_rd grid L (po : bool) even c lam W wn w : search_grid grid -> let lr := l_requested (stat_freq b) L in (lr < length (ss (bsve b)))%nat -> marked (bsve b) lr even c ->
  klam (bkernel b) = Some lam -> (forall n, allowed b n -> true_value b c (rd (40 * lam)) model n (W n)) ->
  ends_with (fun fuel => basis_matsubara_rd rd F model nz fuel grid b (Some L) po) (Ok (wn, w)) ->
  let X n := coordinate (stat_freq b) even (W n) in
  let E n := value_error u eta (constant_error u ej ec um em gam) th b c n in
  (forall n, In n wn -> (0 <= n)%Z -> Rabs (X n) <= E n \/ Rabs (X (n + 2)%Z) <= E (n + 2)%Z \/ X n * X (n + 2)%Z < 0) /\
  (forall a d, adjacent grid a d -> E (nu b a) < Rabs (X (nu b a)) -> E (nu b d) < Rabs (X (nu b d)) -> X (nu b a) * X (nu b d) < 0 ->
     exists n, (In n wn /\ (nu b a <= n < nu b d)%Z) /\ forall n', In n' wn -> (nu b a <= n' < nu b d)%Z -> n' = n).
Proof.
  intros Hg lr Hlr Hm Hl HW He. destruct Ha as (A1 & A2 & A3 & A4 & A5 & A6 & A7).
  destruct (spare_rd u eta rd pw compute b Hb F model nz grid L po Hg even c Hlr Hm) as (f & wn' & Hf & Hv & He' & _ & _ & _ & _ & Q1 & Q2 & Q3).
  cbv zeta in He'. pose proof (ends_unique _ _ _ He He') as E0. injection E0 as <- _. clear He'. cbv zeta. split.
  - intros n Hn H0. destruct (Q1 n Hn H0) as (x & -> & [(v & Cv & Ev)|Hc]).
    + left. eapply hit_located; eauto.
    + eapply change_located; eauto.
  - intros a d Had La Ld Hop.
    assert (S : forall x, In x grid -> exists v, seen f grid x v).
    { intros x Hx. apply In_nth_error in Hx as (i & Hi). destruct (nth_error (f grid) i) as [v|] eqn:Ev.
      - exists v, i. auto.
      - apply nth_error_None in Ev. rewrite (Hf grid) in Ev. assert (i < length grid)%nat by (apply nth_error_Some; congruence). lia. }
    destruct (adjacent_in _ _ _ Had) as (Ia & Id). destruct (S a Ia) as (va & Sa). destruct (S d Id) as (vd & Sd).
    apply (Q3 a d va vd Had Sa Sd). assert (Ca : computed f a va) by (exists grid; exact Sa). assert (Cd : computed f d vd) by (exists grid; exact Sd).
    exact (opposite_seen u eta rd pw compute b Hb F model ej ec um em gam th A1 A2 A3 A4 A5 A6 A7 lam lr even c f W Hl Hm Hv HW a d va vd Ca Cd La Ld Hop).
Qed.

Lemma maxima_rd k even c lam W f : marked (bsve b) k even c -> klam (bkernel b) = Some lam ->
  (forall n, allowed b n -> true_value b c (rd (40 * lam)) model n (W n)) -> uhat_values rd F model b k even f ->
  let X n := coordinate (stat_freq b) even (W n) in
  let E n := value_error u eta (constant_error u ej ec um em gam) th b c n in
  forall a d r, inner_max_rd f a d r -> (a < r < d)%Z /\
  forall m, (m = r - 1 \/ m = r + 1)%Z -> (a < m < d)%Z -> Rabs (X (nu b m)) <= Rabs (X (nu b r)) + E (nu b r) + E (nu b m).
Proof.
  intros Hm Hl HW Hv. destruct Ha as (A1 & A2 & A3 & A4 & A5 & A6 & A7). cbv zeta. intros a d r H. eapply max_located; eauto.
Qed.
End Located.

(** True values exist. *)
Lemma true_exists u eta rd pw compute b : built_rd u eta rd pw compute b -> forall l even c T model, marked (bsve b) l even c ->
  exists W, forall n, true_value b c T model n (W n).
Proof.
  intros Hb l even c T model (Ec & _). destruct (full_rd_facts u eta rd pw compute b Hb) as (lam & _ & Pb & (Su & _) & _).
  destruct Su as (Hg & H1 & H2 & Hfl & Ho & Hlo). set (g := vgeom (su (bsve b))) in *.
  set (ci := Col (fun k i => sqrt (bbeta b) * cdat c k i) (csym c)).
  exists (fun n => if Rlt_le_dec (Rabs (IZR n)) T then unl_entry (exactg g) ci n else model n). intros n.
  destruct (Rlt_le_dec (Rabs (IZR n)) T) as [Lt|Ge].
  - pose proof (unl_fourier (exactg g) (exactg_ok _ _ _ Hg) H1 H2 Hlo ci n) as Iw.
    split; [|lra]. intros _. apply phys_integral; [exact Pb|exact Iw].
  - split; [lra|auto].
Qed.

(** * Sampling at the default points *)
Section Sampling.
Variables (u eta : R) (rd : R -> R) (pw : R -> Z -> R) (compute : kern -> option R -> res sve_result) (b : basis).
Hypothesis Hb : built_rd u eta rd pw compute b.
Variables (F : flib) (model : Z -> C) (nz : list Z -> nat -> bool).
Let Fh := buhat_full b.
Let q := stat_freq b.

Lemma searched_shaped p f : fgeom p = fgeom Fh -> ffreq p = ft_of q -> searched_rd rd F model nz p = Ok f -> shaped f.
Proof.
  intros Gp Qp. unfold searched_rd. destruct (fcols p) as [|c [|? ?]] eqn:Cp; try discriminate. rewrite Qp.
  replace (search_freq (ft_of q)) with (Ok q : res freq) by (destruct q; reflexivity). cbn [bind].
  destruct (func_part _ _) as [part|]; [|discriminate]. cbn [bind]. destruct (ft_call_rd _ _ _ _ _); [|discriminate]. cbn [bind].
  intros E. injection E as <-. intros ns.
  destruct (full_rd_facts u eta rd pw compute b Hb) as (lam & Hl & _ & ((Gn & _ & _ & _ & Po & Eo) & _) & _). destruct (full_rd_shape u eta rd pw compute b Hb) as (_ & _ & _ & _ & G & _).
  fold Fh in G. rewrite G in Gp.
  destruct (proj1 (call_rd_iff rd F (fun _ => model) p (map (fun n => 2 * n + zeta q)%Z ns) ltac:(rewrite Gp; exact Po) ltac:(rewrite Gp; apply Gn) ltac:(rewrite Gp; exact Eo))) as (M & EM & LM & RM).
  { rewrite Qp. apply Forall_forall. intros m Hm. apply in_map_iff in Hm as (x & <- & _). apply (nu_ok b x). }
  change (fun n : Z => (match n with Z0 => Z0 | Z.pos y' => Z.pos (xO y') | Z.neg y' => Z.neg (xO y') end + zeta q)%Z) with (fun n => (2 * n + zeta q)%Z).
  rewrite EM. rewrite Cp in LM. destruct M as [|row [|? ?]]; try discriminate. inversion RM; subst. rewrite map_length in *. rewrite combine_length, seq_length. lia.
Qed.

Lemma default_rd_allowed grid L (po : bool) wn w : search_grid grid ->
  ends_with (fun fuel => basis_matsubara_rd rd F model nz fuel grid b (Some L) po) (Ok (wn, w)) ->
  Forall (allowed b) wn /\ (po = true -> Forall (fun n => 0 <= n)%Z wn) /\ (po = false -> symmetric wn).
Proof.
  intros Hg Hend. destruct (full_rd_shape u eta rd pw compute b Hb) as (HQ & HK & HN & _). fold Fh q in HQ, HK.
  set (N := length (ss (bsve b))) in *. set (lr := l_requested q L).
  set (z := if (lr <? N)%nat then Z.of_nat lr else (-1)%Z).
  destruct (do p <- ft_item Fh z; searched_rd rd F model nz p) as [f|e] eqn:Ef.
  2:{ exfalso. destruct Hend as (n & H). specialize (H n ltac:(lia)). unfold basis_matsubara_rd, uhat_default_rd in H. fold Fh in H. rewrite HQ in H.
      replace (search_freq (ft_of q)) with (Ok q : res freq) in H by (destruct q; reflexivity). cbn [after] in H. rewrite HK in H. fold lr in H. fold z in H. rewrite Ef in H. discriminate. }
  assert (Hf : shaped f).
  { destruct (nth_error (fcols Fh) (if (lr <? N)%nat then lr else (N - 1)%nat)) as [c|] eqn:Ec.
    2:{ exfalso. apply nth_error_None in Ec. rewrite HK in Ec. destruct (Nat.ltb_spec lr N); lia. }
    destruct (item_rd u eta rd pw compute b Hb z _ c Ec) as (p & Ep & _ & _ & Qp & Gp & _).
    { fold N. unfold z. destruct (lr <? N)%nat eqn:E; [apply Nat.ltb_lt in E; apply (nat_index b); auto|apply (last_index b); auto]. }
    fold Fh in Ep. rewrite Ep in Ef. cbn [bind] in Ef. exact (searched_shaped p f Gp Qp Ef). }
  assert (U : forall fuel, basis_matsubara_rd rd F model nz fuel grid b (Some L) po = _) by (intros fuel; exact (default_unfold u eta rd pw compute b Hb F model nz grid L po fuel f z eq_refl Ef)).
  fold q N lr in U. destruct (lr <? N)%nat.
  - destruct (spare_end f q grid po Hf Hg) as (x0 & wn' & He & P1 & P2 & P3 & _).
    assert (E : Ok (wn, w) = Ok (wn', negb (length wn' =? (if po then Nat.div (lr + 1) 2 else lr))%nat)).
    { apply (ends_unique _ _ _ Hend). revert He. apply ends_map. intros fuel Hr. rewrite U, Hr. reflexivity. }
    injection E as -> _. auto.
  - pose proof Hg as (_ & Hl2 & _). destruct (grid_ends grid Hl2) as (z0 & z1 & zl & zl' & k1 & k2 & E1 & E2).
    destruct (fallback_end f q grid po Hf Hg rd z0 z1 zl zl' k1 k2 E1 E2) as (x0 & out & He & H1 & _).
    assert (E : Ok (wn, w) = (do wn <- with_zero out; Ok (wn, negb (length wn =? (if po then Nat.div (lr + 1) 2 else lr))%nat))).
    { apply (ends_unique _ _ _ Hend). revert He. apply ends_map. intros fuel Hr. rewrite U, Hr. destruct out as [wn'|]; [|reflexivity]. cbn [after]. destruct (with_zero (Ok wn')); reflexivity. }
    destruct (with_zero out) as [wn'|]; [|discriminate]. cbn [bind] in E. injection E as -> _. destruct (H1 wn' eq_refl) as (P1 & P2 & P3 & _). auto.
Qed.

Lemma mats_default_rd_ok grid old hmodel svd (po : bool) out : search_grid grid ->
  ends_with (fun fuel => basis_matsubara_rd rd F model nz fuel grid b None po) out ->
  let sb := sb_of_basis_rd old rd F hmodel b in
  match out with
  | Raise e => ends_with (fun fuel => mats_default_rd old rd F hmodel model nz fuel grid svd b po) (Raise e)
  | Ok (wn, w) =>
      Forall (allowed b) wn /\ (po = true -> Forall (fun n => 0 <= n)%Z wn) /\ (po = false -> symmetric wn) /\
      (po = true -> wn = [] -> ends_with (fun fuel => mats_default_rd old rd F hmodel model nz fuel grid svd b po) (Raise IndexError)) /\
      (po = false \/ wn <> [] /\ (forall A, svd_shapes A (svd A)) ->
       exists s, ends_with (fun fuel => mats_default_rd old rd F hmodel model nz fuel grid svd b po) (Ok (s, w)) /\ ms_points s = wn /\ ms_positive s = po /\
        matsubara_sampling svd sb wn po = Ok s /\
        (StronglySorted Z.le wn -> matsubara_sampling_at svd sb (IntArr wn) po = Ok s))
  end.
Proof.
  intros Hg Hr sb. unfold mats_default_rd. fold sb. destruct out as [[wn w]|e]; [|exact (mats_raise svd _ _ po e Hr)].
  destruct (default_rd_allowed grid (bsize b) po wn w Hg Hr) as (P1 & P2 & P3). split; [exact P1|]. split; [exact P2|]. split; [exact P3|].
  destruct (proj1 (uhat_outcome u eta rd pw compute b old F hmodel Hb wn) P1) as (M & EM).
  destruct (mats_from_values svd sb _ wn w po M Hr EM) as [M1 M2]. split; [exact M1|]. intros Hc. destruct (M2 Hc) as (s & S1 & S2 & S3 & S4 & S5). exists s. auto 8.
Qed.
End Sampling.

(** * Exact arithmetic *)
Section Exact.
Variables (g : Z -> R).
Let f : sampled := fun ns => map (fun n => (g n, false)) ns.
Definition forget (c : bracket Z (R * bool)) : bracket Z R := mkbr (ba c) (bb c) (fst (bfa c)) (fst (bfb c)).
Definition plain (c : bracket Z (R * bool)) : Prop := snd (bfa c) = false /\ snd (bfb c) = false.

Lemma sign_plain v : snd v = false -> DefaultsIEEE.sign_of v = rsignbit (fst v).
Proof.
  intros H. unfold DefaultsIEEE.sign_of, rsignbit. rewrite H. destruct (Reqb (fst v) 0) eqn:E; [|reflexivity]. apply Reqb_true in E. rewrite E.
  symmetry. apply Rltb_false. lra.
Qed.
Lemma filter_forget (h : bracket Z R -> bool) k : map forget (filter (fun c => h (forget c)) k) = filter h (map forget k).
Proof. induction k as [|c k IH]; [reflexivity|]. cbn [filter map]. destruct (h (forget c)); cbn [map]; rewrite IH; reflexivity. Qed.
Lemma existsb_forget (h : bracket Z R -> bool) k : existsb (fun c => h (forget c)) k = existsb h (map forget k).
Proof. induction k as [|c k IH]; [reflexivity|]. cbn [existsb map]. rewrite IH. reflexivity. Qed.
Lemma forallb_forget (h : bracket Z R -> bool) k : forallb (fun c => h (forget c)) k = forallb h (map forget k).
Proof. induction k as [|c k IH]; [reflexivity|]. cbn [forallb map]. rewrite IH. reflexivity. Qed.

Lemma bisect_exact fuel : forall k, Forall plain k -> bisect_arr f fuel k = bisect_discr rsignbit g fuel (map forget k).
Proof.
  induction fuel as [|fuel IH]; intros k Hk; [reflexivity|]. cbn [bisect_arr bisect_discr]. cbv zeta.
  set (mid := fun c : bracket Z R => ((ba c + bb c) / 2)%Z). set (found := fun c : bracket Z R => (ba c =? mid c)%Z).
  change (fun c : bracket Z (R * bool) => (ba c =? (ba c + bb c) / 2)%Z) with (fun c => found (forget c)).
  change (fun c : bracket Z (R * bool) => negb (found (forget c))) with (fun c => (fun d => negb (found d)) (forget c)).
  change (fun c : bracket Z (R * bool) => ((ba c + bb c) / 2)%Z) with (fun c => mid (forget c)).
  change (fun c : bracket Z R => (ba c =? (ba c + bb c) / 2)%Z) with found.
  change (fun c : bracket Z R => negb (ba c =? (ba c + bb c) / 2)%Z) with (fun c => negb (found c)).
  rewrite existsb_forget, forallb_forget. rewrite <- (map_map forget mid), filter_forget.
  destruct (existsb found (map forget k)).
  - destruct (forallb found (map forget k)); [reflexivity|].
    rewrite IH. 2:{ apply Forall_forall. intros c Hc. apply filter_In in Hc as [Hc _]. rewrite Forall_forall in Hk. auto. }
    match goal with |- context [bisect_discr _ _ _ (map forget ?X)] => replace (map forget X) with (filter (fun d => negb (found d)) (map forget k)) by (symmetry; exact (filter_forget (fun d => negb (found d)) k)) end. reflexivity.
  - assert (E : map forget (map2 (fun c fm => halve_with c ((ba c + bb c) / 2)%Z fm) k (f (map (fun c => mid (forget c)) k))) = map (halve rsignbit g mid) (map forget k) /\
       Forall plain (map2 (fun c fm => halve_with c ((ba c + bb c) / 2)%Z fm) k (f (map (fun c => mid (forget c)) k)))).
    { clear IH. unfold f. induction Hk as [|c k (H1 & H2) Hk IHk]; [split; constructor|]. destruct IHk as (I1 & I2). cbn [map map2]. rewrite I1.
      assert (S1 : DefaultsIEEE.sign_of (bfa c) = rsignbit (bfa (forget c))) by (apply sign_plain; auto).
      assert (S2 : DefaultsIEEE.sign_of (g (mid (forget c)), false) = rsignbit (g (mid (forget c)))) by (apply sign_plain; reflexivity).
      unfold halve_with, halve. rewrite S1, S2. split.
      - f_equal. destruct (negb _); reflexivity.
      - constructor; [|exact I2]. destruct (negb _); split; cbn; auto. }
    destruct E as (E1 & E2). rewrite IH by exact E2. rewrite E1. reflexivity.
Qed.

Lemma map2_map {A B D E} (h : A -> B) (k : B -> B -> D) (k' : A -> A -> E) (e : D -> E) (l1 : list A) : forall l2,
  (forall x y, e (k (h x) (h y)) = k' x y) -> map e (map2 k (map h l1) (map h l2)) = map2 k' l1 l2.
Proof. induction l1 as [|x l1 IH]; intros [|y l2] H; try reflexivity. cbn [map map2]. rewrite H, IH by auto. reflexivity. Qed.
Lemma init_map {A B} (h : A -> B) l : init (map h l) = map h (init l).
Proof. induction l as [|x [|y l] IH]; try reflexivity. change (init (map h (x :: y :: l))) with (h x :: init (map h (y :: l))). rewrite IH. reflexivity. Qed.
Lemma tl_map {A B} (h : A -> B) l : tl (map h l) = map h (tl l).
Proof. destruct l; reflexivity. Qed.
Lemma map2_diag {A B D} (h : A -> B) (k : B -> B -> D) (l1 : list A) : forall l2, map2 k (map h l1) (map h l2) = map2 (fun x y => k (h x) (h y)) l1 l2.
Proof. induction l1 as [|x l1 IH]; intros [|y l2]; try reflexivity. cbn [map map2]. rewrite IH. reflexivity. Qed.
Lemma map2_ext' {A B D} (k k' : A -> B -> D) (H : forall x y, k x y = k' x y) (l1 : list A) : forall l2, map2 k l1 l2 = map2 k' l1 l2.
Proof. induction l1 as [|x l1 IH]; intros [|y l2]; try reflexivity. cbn [map2]. rewrite H, IH. reflexivity. Qed.
Lemma mask_map {A B} (h : A -> B) m : forall l, mask m (map h l) = map h (mask m l).
Proof. induction m as [|x m IH]; intros [|y l]; try reflexivity; destruct x; try reflexivity; cbn [mask map]; rewrite IH; reflexivity. Qed.
Lemma zip_forget (a d : list Z) : forall va vd, map forget (zip_brackets a d (map (fun v => (v, false)) va) (map (fun v => (v, false)) vd)) = zip_brackets a d va vd /\
  Forall plain (zip_brackets a d (map (fun v => (v, false)) va) (map (fun v => (v, false)) vd)).
Proof.
  unfold zip_brackets. revert d. induction a as [|x a IH]; intros d va vd; [split; [reflexivity|constructor]|].
  destruct va as [|v va]; [split; [reflexivity|constructor]|]. destruct d as [|y d]; [split; [reflexivity|constructor]|]. destruct vd as [|w vd]; [split; [reflexivity|constructor]|].
  cbn [map combine map2 fst snd]. destruct (IH d va vd) as (I1 & I2). split; [rewrite I1; reflexivity|constructor; [split; reflexivity|exact I2]].
Qed.

Let pr (v : R) : R * bool := (v, false).
Lemma f_map l : f l = map pr (map g l).
Proof. unfold f, pr. rewrite map_map. reflexivity. Qed.
Lemma find_all_exact fuel grid : find_all_arr f fuel grid = find_all_discr rsignbit (fun v => Reqb v 0) fuel g grid.
Proof.
  unfold find_all_arr, find_all_discr, find_all. rewrite f_map. cbv zeta. set (fx := map g grid).
  rewrite (map_map pr (fun v => Reqb (fst v) 0)). cbn [pr fst]. rewrite init_map, tl_map, map2_diag.
  rewrite (map2_ext' (fun x y => negb (Bool.eqb (DefaultsIEEE.sign_of (pr x)) (DefaultsIEEE.sign_of (pr y)))) (fun p q => negb (Bool.eqb (rsignbit p) (rsignbit q)))).
  2:{ intros x y. rewrite !sign_plain by reflexivity. reflexivity. }
  destruct (negb _); [reflexivity|]. rewrite !mask_map. unfold pr.
  match goal with |- context [zip_brackets ?a ?d (map _ ?va) (map _ ?vd)] => destruct (zip_forget a d va vd) as (E1 & E2) end.
  rewrite bisect_exact by exact E2. rewrite E1. reflexivity.
Qed.

Lemma single_exact n : single f n = g n.
Proof. reflexivity. Qed.
Lemma extremum_ext h h' (H : forall n, h n = h' n) fuel : forall a d va vd, bisect_extremum h fuel a d va vd = bisect_extremum h' fuel a d va vd.
Proof. induction fuel as [|fuel IH]; intros; [reflexivity|]. cbn [bisect_extremum]. cbv zeta. rewrite !H, !IH. reflexivity. Qed.
Lemma extrema_exact fuel grid : discrete_extrema_arr (fun x => x) f fuel grid = discrete_extrema fuel g grid.
Proof.
  unfold discrete_extrema_arr, discrete_extrema. rewrite f_map. cbv zeta. set (fx := map g grid).
  rewrite (map_map pr (fun v => Rabs (fst v))). cbn [pr fst]. change (fun x : R => Rabs x) with Rabs. rewrite init_map, tl_map, map2_diag.
  rewrite (map2_ext' (fun x y => diff_sign (fun x => x) (pr x) (pr y)) (fun p q => rsignbit (q - p))).
  2:{ intros x y. unfold diff_sign, pr, rsignbit. cbn [fst snd negb]. rewrite andb_false_r. destruct (Reqb (y - x) 0) eqn:E; [|reflexivity].
      apply Reqb_true in E. symmetry. apply Rltb_false. lra. }
  replace (map2 (fun p q => rsignbit (q - p)) (init fx) (tl fx)) with (map rsignbit (map2 (fun p q => q - p) (init fx) (tl fx))).
  2:{ generalize (tl fx). induction (init fx) as [|x l IH]; intros [|y l2]; try reflexivity. cbn [map map2]. rewrite IH. reflexivity. }
  erewrite (map_ext _ (fun c => bisect_extremum g fuel (ba c) (bb c) (bfa c) (bfb c))).
  2:{ intros c. apply extremum_ext, single_exact. }
  destruct (traverse _) as [inner|]; [|reflexivity]. rewrite <- !map_rev.
  destruct grid as [|x0 l0] eqn:Eg; [reflexivity|]. unfold fx. destruct l0 as [|x1 l1]; [reflexivity|].
  assert (El : List.length (rev (x0 :: x1 :: l1)) = S (S (List.length l1))) by (rewrite rev_length; reflexivity).
  destruct (rev (x0 :: x1 :: l1)) as [|xl [|xl' l2]] eqn:Er; [discriminate|discriminate|].
  assert (E1 : rev (map g (x0 :: x1 :: l1)) = map g (xl :: xl' :: l2)) by (rewrite <- map_rev, Er; reflexivity).
  assert (E2 : rev (map pr (map g (x0 :: x1 :: l1))) = map pr (map g (xl :: xl' :: l2))) by (rewrite <- map_rev, E1; reflexivity).
  cbn [map] in *. rewrite ?E1, ?E2. cbn [map pr fst]. rewrite !sign_plain by reflexivity. reflexivity.
Qed.
End Exact.
