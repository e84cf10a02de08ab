(** Facts about the basis objects of the irbasis replacement. *)
From Coq Require Import String ZArith Reals Arith Bool Lra Lia Sorting.Sorted Permutation.
From Coquelicot Require Import Coquelicot.
From Coq Require Import List.
From Verif.Model Require Import Base Util Num Roots Poly FT SVE Basis NDArray Adapter.
From Verif.Spec Require Import SRoots SPoly SFT SBasis SAdapter.
From Verif.Proofs Require Import BaseFacts RootsFacts PPolyFacts PPolyExamples FTFacts FTCall FTProps BasisFacts BasisProps BasisPhys NDFacts SVEPolicy AdapterFacts AdapterRoots.
Import ListNotations.
Open Scope R_scope.
Notation length := List.length.

Lemma even_odd_inv st q : even_odd st = Ok q -> (st = "F"%string /\ q = FOdd) \/ (st = "B"%string /\ q = FEven).
Proof.
  unfold even_odd. destruct (String.eqb_spec st "F"); [intros H; injection H as <-; auto|].
  destruct (String.eqb_spec st "B"); [intros H; injection H as <-; auto|discriminate].
Qed.

Lemma adapter_inv st lam r b : sve_ok r -> adapter_basis st lam r = Ok b ->
  exists n q, astat b = st /\ alam b = lam /\ (n <= length (ss r))%nat /\ au b = take n (su r) /\ as_ b = firstn n (ss r) /\ av b = take n (sv r) /\
    even_odd st = Ok q /\ ft_init (au b) q (AsympAt (40 * lam)) None = Ok (auhat b).
Proof.
  intros Hr. unfold adapter_basis. destruct (part r None None) as [[[u s] v]|] eqn:Ep; [|discriminate]. cbn [bind].
  destruct (even_odd st) as [q|] eqn:Eq; [|discriminate]. cbn [bind].
  destruct (ft_init u q (AsympAt (40 * lam)) None) as [f|] eqn:Ef; [|discriminate]. cbn [bind]. intros H. injection H as <-.
  destruct Hr as (_ & _ & _ & _ & _ & _ & Lu & Lv & _).
  destruct (part_prefix r None None u s v Lu Lv Ep) as (n & Hn & -> & -> & ->). exists n, q. cbn. auto 10.
Qed.

Lemma take_fresh n p : fresh p -> fresh (take n p).
Proof. intros H. exact H. Qed.

Lemma adapted_facts b : adapted b ->
  exists q, fresh (au b) /\ fresh (av b) /\ gxmin (vgeom (au b)) = -1 /\ gxmax (vgeom (au b)) = 1 /\
    gxmin (vgeom (av b)) = -1 /\ gxmax (vgeom (av b)) = 1 /\
    length (vcols (au b)) = adim b /\ length (vcols (av b)) = adim b /\
    even_odd (astat b) = Ok q /\ ft_init (au b) q (AsympAt (40 * alam b)) None = Ok (auhat b) /\ q <> FAny.
Proof.
  intros (r & E & Hr). destruct (adapter_inv _ _ _ _ Hr E) as (n & q & _ & _ & Hn & Eu & Es & Ev & Eq & Ef).
  destruct Hr as (Fu & Fv & U1 & U2 & V1 & V2 & Lu & Lv & _). exists q. unfold adim. rewrite Es. 
  rewrite Eu in Ef |- *. rewrite Ev. unfold take in *. cbn [vgeom vcols] in *. rewrite !firstn_length. rewrite Lu, Lv.
  repeat match goal with |- _ /\ _ => split end; auto. destruct (even_odd_inv _ _ Eq) as [[_ ->]|[_ ->]]; discriminate.
Qed.

(** ** Functions *)
Lemma nth_error_firstn {A} (l : list A) n i : (i < n)%nat -> nth_error (firstn n l) i = nth_error l i.
Proof. revert n i. induction l as [|a l IH]; intros [|n] [|i] H; cbn; auto; try lia. apply IH. lia. Qed.

Lemma value_take p n l x : (l < n)%nat -> (l < length (vcols p))%nat -> value (take n p) (Z.of_nat l) x = value p (Z.of_nat l) x.
Proof.
  intros H1 H2. unfold value. cbn [take vgeom vcols]. destruct (split (vgeom p) x); auto. cbn [bind].
  rewrite !BasisPhys.pyindex_nat, nth_error_firstn by auto. reflexivity.
Qed.

Lemma adapter_functions st lam r b l f g : sve_ok r -> adapter_basis st lam r = Ok b -> (l < adim b)%nat ->
  represents (su r) l f -> represents (sv r) l g ->
  (forall x, -1 <= x <= 1 -> ulx b (Z.of_nat l) x = Ok (f x) /\ vly b (Z.of_nat l) x = Ok (g x)) /\
  (forall x, x < -1 \/ 1 < x -> ulx b (Z.of_nat l) x = Raise ValueError /\ vly b (Z.of_nat l) x = Raise ValueError) /\
  sl b (Z.of_nat l) = Ok (sval r l).
Proof.
  intros Hr E Hl Hf Hg. destruct (adapter_inv _ _ _ _ Hr E) as (n & q & _ & _ & Hn & Eu & Es & Ev & _ & _).
  destruct Hr as (Fu & Fv & U1 & U2 & V1 & V2 & Lu & Lv & _).
  assert (Hln : (l < n)%nat). { unfold adim in Hl. rewrite Es, firstn_length in Hl. lia. }
  split; [|split].
  - intros x Hx. unfold ulx, vly. rewrite Eu, Ev, !value_take by lia. split; [apply Hf; rewrite U1, U2; auto|apply Hg; rewrite V1, V2; auto].
  - intros x Hx. unfold ulx, vly, value. rewrite Eu, Ev. cbn [take vgeom].
    rewrite !split_out by (rewrite ?U1, ?U2, ?V1, ?V2; auto). auto.
  - unfold sl, sval. rewrite Es, BasisPhys.pyindex_nat, nth_error_firstn by auto.
    rewrite (nth_error_nth' (ss r) 0) by lia. reflexivity.
Qed.

Lemma adapter_size r st lam b e : sve_ok r -> adapter_basis st lam r = Ok b -> seps r = Some e -> adim b = nabove e (ss r).
Proof.
  intros Hr E He. destruct Hr as (_ & _ & _ & _ & _ & _ & Lu & Lv & Hne & _).
  destruct (part_limits r None e 0 Lu Lv Hne He) as (H & _). unfold adapter_basis in E. rewrite H in E. cbn [bind] in E.
  destruct (even_odd st) as [q|]; [|discriminate]. cbn [bind] in E. destruct (ft_init _ _ _ _) as [f|]; [|discriminate].
  injection E as <-. unfold adim. cbn [as_]. rewrite firstn_length. pose proof (nabove_le e (ss r)). lia.
Qed.

Lemma adapter_accepts r st lam e : sve_ok r -> seps r = Some e ->
  ((st = "F" \/ st = "B")%string -> exists b, adapter_basis st lam r = Ok b /\ astat b = st /\ alam b = lam) /\
  ((st <> "F" /\ st <> "B")%string -> adapter_basis st lam r = Raise KeyError).
Proof.
  intros Hr He. pose proof Hr as (Fu & Fv & U1 & U2 & V1 & V2 & Lu & Lv & Hne & _).
  destruct (part_limits r None e 0 Lu Lv Hne He) as (H & _). unfold adapter_basis. rewrite H. cbn [bind]. split.
  - intros Hst. assert (exists q, even_odd st = Ok q /\ q <> FAny) as (q & Eq & Hq).
    { destruct Hst as [->| ->]; unfold even_odd; cbn; eexists; (split; [reflexivity|discriminate]). }
    rewrite Eq. cbn [bind]. unfold ft_init. cbn [take vgeom]. rewrite U1, U2. 
    rewrite (proj2 (Reqb_true (-1) (-1)) eq_refl), (proj2 (Reqb_true 1 1) eq_refl). cbn [negb orb].
    destruct Fu as (G1 & G2 & G3).
    rewrite (power_model_val q (take (nabove e (ss r)) (su r))); cbn [take vgeom]; auto; try lia; try (rewrite ?U1, ?U2; lra).
    cbn [bind]. eexists. split; [reflexivity|]. auto.
  - intros [H1 H2]. unfold even_odd. apply String.eqb_neq in H1. apply String.eqb_neq in H2. rewrite H1, H2. reflexivity.
Qed.

Lemma load_result compute warn st lam : load compute warn st lam =
  (if string_dec st "F" then (do r <- compute (logistic lam) None; adapter_basis st lam r)
   else if string_dec st "B" then
     (if Rlt_dec lam 0 then Raise ValueError else do r <- compute (Kern (Some lam) 1) None; adapter_basis st lam r)
   else Raise KeyError, warn).
Proof.
  unfold load, Rltb. f_equal. destruct (String.eqb_spec st "F"), (string_dec st "F"); try contradiction; [reflexivity|].
  destruct (String.eqb_spec st "B"), (string_dec st "B"); try contradiction; [|reflexivity].
  destruct (Rlt_dec lam 0); reflexivity.
Qed.

(** ** Derivatives *)
Lemma value_deriv p l m i x f : fresh p -> (l < length (vcols p))%nat ->
  (i < gnseg (vgeom p))%nat -> knot (vgeom p) i < x < knot (vgeom p) (S i) -> represents p l f ->
  exists d, value (vderiv m p) (Z.of_nat l) x = Ok d /\ is_derive_n f m x d.
Proof.
  intros (G1 & G2 & G3) Hl Hi Hx Hf.
  assert (exists c, nth_error (vcols p) l = Some c) as [c Hc].
  { destruct (nth_error (vcols p) l) eqn:E; eauto. apply nth_error_None in E. lia. }
  assert (Hlen : (0 < glen (vgeom p))%nat) by lia.
  exists (cval (gderiv m (vgeom p)) (cderiv m (vgeom p) c) x).
  assert (Hk0 : knot (vgeom p) 0 <= knot (vgeom p) i) by (apply knot_le; auto; lia).
  assert (Hk1 : knot (vgeom p) (S i) <= knot (vgeom p) (gnseg (vgeom p))) by (apply knot_le; auto; lia).
  split.
  - apply (value_cval (vderiv m p) l (cderiv m (vgeom p) c)).
    + apply gderiv_ok; auto.
    + cbn. apply legder_len_pos. auto.
    + cbn [vderiv vcols]. rewrite nth_error_map, Hc. reflexivity.
    + cbn [vderiv vgeom]. change (gxmin (vgeom p) <= x <= gxmax (vgeom p)). rewrite xmin_knot, xmax_knot; auto. lra.
  - apply is_derive_n_ext_loc with (cval (vgeom p) c); [|apply deriv_interior with (i := i); auto].
    assert (Hd : 0 < Rmin (x - knot (vgeom p) i) (knot (vgeom p) (S i) - x)) by (apply Rmin_glb_lt; lra).
    exists (mkposreal _ Hd). intros y Hy. change (Rabs (y - x) < Rmin (x - knot (vgeom p) i) (knot (vgeom p) (S i) - x)) in Hy.
    pose proof (Rmin_l (x - knot (vgeom p) i) (knot (vgeom p) (S i) - x)). pose proof (Rmin_r (x - knot (vgeom p) i) (knot (vgeom p) (S i) - x)).
    apply Rabs_def2 in Hy. assert (Hr : gxmin (vgeom p) <= y <= gxmax (vgeom p)) by (rewrite xmin_knot, xmax_knot; auto; lra).
    specialize (Hf y Hr). rewrite (value_cval p l c) in Hf by (auto; lia). congruence.
Qed.

Lemma adapter_deriv b l m i x f : adapted b -> (l < adim b)%nat ->
  ((i < gnseg (vgeom (au b)))%nat -> knot (vgeom (au b)) i < x < knot (vgeom (au b)) (S i) ->
   (forall y, -1 <= y <= 1 -> ulx b (Z.of_nat l) y = Ok (f y)) ->
   exists d, d_ulx b (Z.of_nat l) x m = Ok d /\ is_derive_n f m x d) /\
  ((i < gnseg (vgeom (av b)))%nat -> knot (vgeom (av b)) i < x < knot (vgeom (av b)) (S i) ->
   (forall y, -1 <= y <= 1 -> vly b (Z.of_nat l) y = Ok (f y)) ->
   exists d, d_vly b (Z.of_nat l) x m = Ok d /\ is_derive_n f m x d).
Proof.
  intros Hb Hl. destruct (adapted_facts b Hb) as (q & Fu & Fv & U1 & U2 & V1 & V2 & Lu & Lv & _). split; intros Hi Hx Hf.
  - apply (value_deriv (au b) l m i x f); auto; [lia|]. intros y Hy. apply Hf. rewrite U1, U2 in Hy. auto.
  - apply (value_deriv (av b) l m i x f); auto; [lia|]. intros y Hy. apply Hf. rewrite V1, V2 in Hy. auto.
Qed.

(** ** Sampling points in x and y *)
Lemma x_points b l f : adapted b -> (l < adim b)%nat ->
  (forall x, -1 <= x <= 1 -> ulx b (Z.of_nat l) x = Ok (f x)) ->
  exists zs pts, ends_with (fun fuel => sampling_points_x b fuel (Z.of_nat l)) (Ok pts) /\
    Forall2 (narrow_change f) (opposite_pairs f mesh) zs /\
    StronglySorted Rlt (-1 :: zs ++ [1]) /\ interlaced (-1 :: zs ++ [1]) pts.
Proof.
  intros Hb Hl Hf. destruct (adapted_facts b Hb) as (q & (G1 & G2 & G3) & _ & U1 & U2 & _ & _ & Lu & _).
  assert (exists c, nth_error (vcols (au b)) l = Some c) as [c Hc].
  { destruct (nth_error (vcols (au b)) l) eqn:E; eauto. apply nth_error_None in E. lia. }
  assert (Hitem : getitem (au b) (Z.of_nat l) = Ok (SPoly (vgeom (au b)) c)).
  { unfold getitem. rewrite BasisPhys.pyindex_nat, Hc. reflexivity. }
  destruct (find_roots_spec (scall (SPoly (vgeom (au b)) c)) f) as (zs & (n & Hn) & F & Hs & Hin).
  { intros x Hx. assert (Hr : gxmin (vgeom (au b)) <= x <= gxmax (vgeom (au b))) by (rewrite U1, U2; lra).
    rewrite scall_ok by (auto; lia). specialize (Hf x ltac:(lra)). unfold ulx in Hf.
    rewrite (value_cval (au b) l c) in Hf by (auto; lia). exact Hf. }
  assert (Hsort : StronglySorted Rlt (-1 :: zs ++ [1])).
  { rewrite Forall_forall in Hin. constructor.
    - apply StronglySorted_app; auto; [constructor; constructor|]. intros a b' Ha [<-|[]]. apply Hin in Ha. lra.
    - apply Forall_forall. intros x Hx. apply in_app_or in Hx as [Hx|[<-|[]]]; [apply Hin in Hx|]; lra. }
  exists zs, (midpoints (-1 :: zs ++ [1])). split; [|split; [exact F|split; [exact Hsort|apply midpoints_interlaced; auto; discriminate]]].
  exists n. intros fuel Hfu. unfold sampling_points_x. rewrite Hitem. cbn [obind]. rewrite (Hn fuel Hfu). reflexivity.
Qed.

Lemma even_mod l : (Z.of_nat l mod 2 =? 0)%Z = Nat.even l.
Proof.
  destruct (Nat.even l) eqn:E.
  - apply Nat.even_spec in E as [k ->]. apply Z.eqb_eq. rewrite Nat2Z.inj_mul. change (Z.of_nat 2) with 2%Z. rewrite Z.mul_comm. apply Z.mod_mul. lia.
  - assert (O : Nat.odd l = true) by (rewrite <- Nat.negb_even, E; reflexivity). apply Nat.odd_spec in O as [k ->].
    apply Z.eqb_neq. rewrite Nat2Z.inj_add, Nat2Z.inj_mul. change (Z.of_nat 2) with 2%Z. change (Z.of_nat 1) with 1%Z.
    rewrite Z.add_comm, Z.mul_comm, Z.mod_add by lia. discriminate.
Qed.

Lemma y_points b l f : adapted b -> (l < adim b)%nat ->
  (forall y, -1 <= y <= 1 -> vly b (Z.of_nat l) y = Ok (f y)) ->
  exists zs pts, ends_with (fun fuel => sampling_points_y b fuel (Z.of_nat l)) (Ok pts) /\
    Forall2 (narrow_change (fun t => f ((t + 1) / 2))) (opposite_pairs (fun t => f ((t + 1) / 2)) mesh) zs /\
    let half := map (fun z => (z + 1) / 2) zs in
    let nodes := -1 :: map Ropp (rev half) ++ (if Nat.even l then [] else [0]) ++ half ++ [1] in
    StronglySorted Rlt nodes /\ interlaced nodes pts /\ map Ropp (rev pts) = pts.
Proof.
  intros Hb Hl Hf. set (g := fun t => f ((t + 1) / 2)).
  destruct (find_roots_spec (fun y => vly b (Z.of_nat l) ((y + 1) / 2)) g) as (zs & (n & Hn) & F & Hs & Hin).
  { intros x Hx. apply Hf. lra. }
  set (half := map (fun z => (z + 1) / 2) zs).
  assert (Hhs : StronglySorted Rlt half) by (apply StronglySorted_map with (P := Rlt); auto; intros; lra).
  assert (Hhb : Forall (fun z => 0 < z < 1) half).
  { apply Forall_forall. intros h Hh. apply in_map_iff in Hh as (z & <- & Hz). rewrite Forall_forall in Hin. apply Hin in Hz. lra. }
  set (mid := if Nat.even l then [] else [0]).
  assert (Hm : mid = [] \/ mid = [0]) by (unfold mid; destruct (Nat.even l); auto).
  destruct (half_nodes half mid Hhs Hhb Hm) as (N1 & N2 & N3). set (nodes := -1 :: map Ropp (rev half) ++ mid ++ half ++ [1]) in *.
  exists zs, (midpoints nodes). split; [|split; [exact F|]].
  - exists n. intros fuel Hfu. unfold sampling_points_y. rewrite (Hn fuel Hfu). cbn [obind]. f_equal. f_equal. f_equal.
    rewrite (map_ext (fun z => / 2 * z + / 2) (fun z => (z + 1) / 2)) by (intros; lra). fold half.
    rewrite even_mod. subst mid. destruct (Nat.even l); apply sorted_perm_rsort; auto.
  - cbv zeta. split; [exact N1|]. split; [apply midpoints_interlaced; auto; discriminate|apply midpoints_symmetric; auto].
Qed.

(** ** The transform *)
Lemma freq_zeta b q n : even_odd (astat b) = Ok q -> ffreq (auhat b) = q -> (2 * n + azeta b)%Z = freq_of b n /\ freq_ok q (freq_of b n).
Proof.
  intros H Hq. unfold azeta, freq_of. rewrite Hq. destruct (even_odd_inv _ _ H) as [[-> ->]|[-> ->]]; cbn [ft_zeta freq_ok].
  - destruct (string_dec "F" "F"); [|congruence]. split; [reflexivity|]. rewrite Z.even_add, Z.even_mul. reflexivity.
  - destruct (string_dec "B" "F"); [discriminate|]. split; [lia|]. rewrite Z.even_mul. reflexivity.
Qed.

(** All values at once. *)
Lemma unl_row b l ns : adapted b -> (l < adim b)%nat ->
  exists row, length row = length ns /\
    (forall whole, whole = map (freq_of b) ns -> exists M, ft_call (auhat b) whole = Ok M /\ nth_error M l = Some row /\ length M = adim b /\ Forall (fun r => length r = length ns) M) /\
    (exists f, ft_item (auhat b) (Z.of_nat l) = Ok f /\ ft_call f (map (freq_of b) ns) = Ok [row]) /\
    (forall i m, nth_error ns i = Some m -> exists v, nth_error row i = Some v /\ unl_value b l m v).
Proof.
  intros Hb Hl. destruct (adapted_facts b Hb) as (q & Hfr & _ & U1 & U2 & _ & _ & Lu & _ & Eq & Ef & Hq).
  assert (exists c, nth_error (vcols (au b)) l = Some c) as [c Hc].
  { destruct (nth_error (vcols (au b)) l) eqn:E; eauto. apply nth_error_None in E. lia. }
  pose proof (ft_init_val _ _ _ _ _ Ef) as (_ & K & Q & _).
  assert (Hok : forall ns, Forall (freq_ok q) (map (freq_of b) ns)).
  { intros l0. apply Forall_forall. intros x Hx. apply in_map_iff in Hx as (m & <- & _). apply (freq_zeta b q m Eq Q). }
  destruct (ft_call_iff _ _ _ _ _ (map (freq_of b) ns) Hfr Ef) as [HM _]. destruct (HM (Hok ns)) as (M & EM & LM & FM).
  destruct (nth_error M l) as [row|] eqn:Er.
  2:{ apply nth_error_None in Er. lia. }
  assert (Lr : length row = length ns).
  { rewrite Forall_forall in FM. rewrite (FM row (nth_error_In _ _ Er)), map_length. reflexivity. }
  exists row. split; [exact Lr|]. split; [|split].
  - intros whole ->. exists M. split; auto. split; auto. split; [lia|].
    eapply Forall_impl; [|exact FM]. cbv beta. intros a Ha. rewrite Ha, map_length. reflexivity.
  - destruct (ft_indexing _ _ _ _ (Z.of_nat l) c Hfr Ef Hq) as (f & Hf & Hr); [rewrite BasisPhys.pyindex_nat; auto|].
    exists f. split; auto. destruct (Hr _ _ EM) as (row' & E1 & E2). rewrite BasisPhys.pyindex_nat, Er in E1. injection E1 as <-. exact E2.
  - intros i m Hi.
    destruct (ft_ok_freq _ _ _ _ _ _ _ Hfr Ef EM) as [_ EM'].
    assert (Ev : entry M l i = Some (ft_value (auhat b) l c (freq_of b m))).
    { rewrite EM'. apply ft_rows_entry; [rewrite K; auto|]. rewrite nth_error_map, Hi. reflexivity. }
    unfold entry in Ev. rewrite Er in Ev. exists (ft_value (auhat b) l c (freq_of b m)). split; auto.
    destruct (ft_call_iff _ _ _ _ _ [freq_of b m] Hfr Ef) as [HM1 _]. destruct (HM1 (Hok [m])) as (M1 & EM1 & _).
    destruct (ft_ok_freq _ _ _ _ _ _ _ Hfr Ef EM1) as [_ EM1']. exists M1. split; auto. rewrite EM1'. apply ft_rows_entry; [rewrite K; auto|reflexivity].
Qed.

Lemma drop_unsqueeze shape : forall idx, length idx = length shape -> Forall2 (fun n i => (i < n)%nat) shape idx ->
  unsqueeze shape (drop_ones shape idx) = idx.
Proof.
  induction shape as [|n s IH]; intros [|i idx] Hl F; cbn in Hl; try lia; [reflexivity|].
  inversion F; subst. cbn [drop_ones unsqueeze]. destruct (Nat.eqb_spec n 1) as [->|].
  - rewrite IH by (auto; lia). f_equal. lia.
  - rewrite IH by (auto; lia). reflexivity.
Qed.

Lemma compute_unl_one b n l : adapted b -> (l < adim b)%nat ->
  exists x, compute_unl b n (Some (Z.of_nat l)) = Ok x /\
    shp x = filter (fun k => negb (Nat.eqb k 1)) [length (ravel n)] /\
    forall i m, nth_error (ravel n) i = Some m -> unl_value b l m (elt x (drop_ones [length (ravel n)] [i])).
Proof.
  intros Hb Hl. destruct (adapted_facts b Hb) as (q & _ & _ & _ & _ & _ & _ & _ & _ & Eq & Ef & _).
  pose proof (ft_init_val _ _ _ _ _ Ef) as (_ & _ & Q & _).
  destruct (unl_row b l (ravel n) Hb Hl) as (row & Lr & _ & (f & Hf & Hr) & Hv).
  unfold compute_unl. rewrite Hf. cbn [bind].
  rewrite (map_ext (fun k => 2 * k + azeta b)%Z (freq_of b)) by (intros k; apply (freq_zeta b q k Eq Q)).
  rewrite Hr. cbn [bind]. eexists. split; [reflexivity|]. rewrite map_length. split; [reflexivity|].
  intros i m Hi. assert (Hlt : (i < length (ravel n))%nat) by (apply nth_error_Some; congruence).
  cbn [squeeze shp elt]. rewrite drop_unsqueeze by (auto; constructor; auto).
  cbn [nth]. destruct (Hv i m Hi) as (v & Ev & Uv). rewrite (nth_error_nth _ _ _ Ev). exact Uv.
Qed.

Lemma compute_unl_all b n : adapted b ->
  exists x, compute_unl b n None = Ok x /\
    shp x = filter (fun k => negb (Nat.eqb k 1)) [length (ravel n); adim b] /\
    forall i m l, nth_error (ravel n) i = Some m -> (l < adim b)%nat ->
      unl_value b l m (elt x (drop_ones [length (ravel n); adim b] [i; l])).
Proof.
  intros Hb. destruct (adapted_facts b Hb) as (q & Hfr & _ & _ & _ & _ & _ & Lu & _ & Eq & Ef & _).
  pose proof (ft_init_val _ _ _ _ _ Ef) as (_ & _ & Q & _).
  assert (Hok : Forall (freq_ok q) (map (freq_of b) (ravel n))).
  { apply Forall_forall. intros x Hx. apply in_map_iff in Hx as (m & <- & _). apply (freq_zeta b q m Eq Q). }
  destruct (ft_call_iff _ _ _ _ _ (map (freq_of b) (ravel n)) Hfr Ef) as [HM _]. destruct (HM Hok) as (M & EM & LM & FM).
  unfold compute_unl. rewrite (map_ext (fun k => 2 * k + azeta b)%Z (freq_of b)) by (intros k; apply (freq_zeta b q k Eq Q)).
  rewrite EM. cbn [bind]. eexists. split; [reflexivity|]. rewrite map_length, LM, Lu. split; [reflexivity|].
  intros i m l Hi Hl. assert (Hlt : (i < length (ravel n))%nat) by (apply nth_error_Some; congruence).
  cbn [squeeze shp elt]. rewrite drop_unsqueeze by (auto; repeat constructor; auto). cbn [nth].
  destruct (unl_row b l (ravel n) Hb Hl) as (row & Lr & Hw & _ & Hv).
  destruct (Hw _ eq_refl) as (M' & EM' & Er & _). rewrite EM in EM'. injection EM' as <-.
  rewrite (nth_error_nth _ _ _ Er). destruct (Hv i m Hi) as (v & Ev & Uv). rewrite (nth_error_nth _ _ _ Ev). exact Uv.
Qed.

Lemma unl_fourier b l m v f : adapted b -> unl_value b l m v -> (l < adim b)%nat ->
  (forall x, -1 <= x <= 1 -> ulx b (Z.of_nat l) x = Ok (f x)) -> Rabs (IZR (freq_of b m)) < 40 * alam b ->
  is_fourier (fun x => PI * IZR (freq_of b m) * (x + 1) / 2) f (-1) 1 (Cmult (RtoC (sqrt 2)) v).
Proof.
  intros Hb (M & EM & Ev) Hl Hf Ht. destruct (adapted_facts b Hb) as (q & Hfr & _ & U1 & U2 & _ & _ & Lu & _ & Eq & Ef & _).
  assert (exists c, nth_error (vcols (au b)) l = Some c) as [c Hc].
  { destruct (nth_error (vcols (au b)) l) eqn:E; eauto. apply nth_error_None in E. lia. }
  destruct (ft_fourier _ _ _ _ _ [freq_of b m] M l c 0 (freq_of b m) Hfr Ef EM Hc eq_refl) as (v' & Ev' & [H1 H2]).
  { intros x Hx. injection Hx as <-. exact Ht. }
  rewrite Ev in Ev'. injection Ev' as <-.
  assert (Hx : forall x, -1 <= x <= 1 -> cval (vgeom (au b)) c x = f x).
  { intros x Hx. specialize (Hf x Hx). unfold ulx in Hf. destruct Hfr as (G1 & G2 & G3).
    rewrite (value_cval (au b) l c) in Hf by (auto; try lia; rewrite U1, U2; auto). congruence. }
  split; (eapply is_RInt_ext; [|eassumption]); intros x Hr; rewrite Rmin_left, Rmax_right in Hr by lra; cbv beta; rewrite Hx by lra; reflexivity.
Qed.

(** ** Sampling frequencies *)
Lemma ravel_array1 {A} (d : A) l : ravel (array1 d l) = l.
Proof.
  unfold ravel, array1. cbn [shp elt prod]. rewrite Nat.mul_1_r. transitivity (map (fun k => nth k l d) (seq 0 (length l))); [|apply map_nth_seq].
  apply map_ext. intros k. cbn [unravel_index prod nth]. rewrite Nat.div_1_r. reflexivity.
Qed.

Lemma allclose_zero l : (forall x, In x l -> x = 0) -> allclose l (map (fun _ => 0) l) = true.
Proof.
  unfold allclose. induction l as [|a l IH]; intros H; [reflexivity|]. cbn [map map2 forallb].
  rewrite IH by (intros x Hx; apply H; right; auto). rewrite (H a) by (left; auto). rewrite andb_true_r. apply Rleb_true.
  replace (0 - 0) with 0 by ring. rewrite Rabs_R0. assert (0 < / 10 ^ 8) by (apply Rinv_0_lt_compat, pow_lt; lra). lra.
Qed.

(** Whether the values are real. *)
Lemma func_part_pm s z : s = 1 \/ s = -1 ->
  func_part s (Some z) = Ok (if Rlt_dec 0 s then (if Z.eqb z 0 then RealPart else ImagPart) else (if Z.eqb z 0 then ImagPart else RealPart)).
Proof.
  assert (C1 : close 1 1 = true). { unfold close. apply Rleb_true. replace (1 - 1) with 0 by ring. rewrite Rabs_R0, Rabs_R1. lra. }
  assert (C2 : close (-1) 1 = false). { unfold close. apply Rleb_false. replace (-1 - 1) with (-2) by ring. rewrite Rabs_R1, Rabs_left by lra. lra. }
  assert (C3 : close (-1) (-1) = true). { unfold close. apply Rleb_true. replace (-1 - -1) with 0 by ring. rewrite Rabs_R0. pose proof (Rabs_pos (-1)). lra. }
  intros [-> | ->]; unfold func_part.
  - rewrite C1. destruct (Rlt_dec 0 1); [|lra]. destruct z; reflexivity.
  - rewrite C2, C3. destruct (Rlt_dec 0 (-1)); [lra|]. destruct z; reflexivity.
Qed.

Lemma unl_part b l m v : adapted b -> alternating b -> (l < adim b)%nat -> unl_value b l m v ->
  if real_row b l then Im v = 0 else Re v = 0.
Proof.
  intros Hb Ha Hl (M & EM & Ev). destruct (adapted_facts b Hb) as (q & Hfr & _ & U1 & U2 & _ & _ & Lu & _ & Eq & Ef & Hq).
  assert (exists c, nth_error (vcols (au b)) l = Some c) as [c Hc].
  { destruct (nth_error (vcols (au b)) l) eqn:E; eauto. apply nth_error_None in E. lia. }
  destruct (Ha l c Hc) as [Hs Hp]. rewrite <- Hs in Hp.
  assert (Hpm : csym c = if Nat.even l then 1 else -1). { rewrite Hs. apply pow_m1. }
  destruct (ft_parity _ _ _ _ _ _ _ _ _ _ Hfr Ef Hq EM Hc Ev) as (part & E1 & E2); auto.
  { rewrite Hpm. destruct (Nat.even l); auto. }
  assert (Hz : exists z, ft_zeta q = Some z /\ Z.eqb z 0 = negb (if string_dec (astat b) "F" then true else false)).
  { destruct (even_odd_inv _ _ Eq) as [[-> ->]|[-> ->]]; cbn; eexists; split; reflexivity. }
  destruct Hz as (z & Hz & Hz'). rewrite Hz, func_part_pm in E1 by (rewrite Hpm; destruct (Nat.even l); auto).
  unfold real_row. rewrite <- Nat.negb_even. rewrite Hpm, Hz' in E1.
  destruct (string_dec (astat b) "F"); destruct (Nat.even l); cbn [negb] in *;
    match type of E1 with context [Rlt_dec ?a ?b] => destruct (Rlt_dec a b); try lra end; injection E1 as <-; exact E2.
Qed.

Lemma real_row_test b l : (Z.of_nat l mod 2 =? (if String.eqb (astat b) "F" then 1 else 0))%Z = real_row b l.
Proof.
  unfold real_row. destruct (String.eqb_spec (astat b) "F"), (string_dec (astat b) "F"); try contradiction; [|apply even_mod].
  rewrite <- Nat.negb_even, <- even_mod. pose proof (Z.mod_pos_bound (Z.of_nat l) 2 ltac:(lia)).
  destruct (Z.eqb_spec (Z.of_nat l mod 2) 1), (Z.eqb_spec (Z.of_nat l mod 2) 0); try reflexivity; lia.
Qed.

Lemma unl_real b l xs : adapted b -> alternating b -> (l < adim b)%nat -> (2 <= length xs)%nat ->
  exists ys, get_unl_real b xs (Z.of_nat l) = Ok ys /\ length ys = length xs /\
    forall i m, nth_error xs i = Some m ->
      unl_value b l m (if real_row b l then (nth i ys 0, 0) else (0, nth i ys 0)).
Proof.
  intros Hb Ha Hl H2. destruct (compute_unl_one b (array1 0%Z xs) l Hb Hl) as (x & Ex & Sx & Vx).
  rewrite ravel_array1 in Sx, Vx. cbn [filter] in Sx.
  assert (N1 : Nat.eqb (length xs) 1 = false) by (apply Nat.eqb_neq; lia). rewrite N1 in Sx. cbn [negb] in Sx.
  assert (Hidx : forall i, drop_ones [length xs] [i] = [i]) by (intros i; cbn; rewrite N1; reflexivity).
  assert (Hrav : forall i d, (i < length xs)%nat -> nth i (ravel x) d = elt x [i]).
  { intros i d Hi. unfold ravel. rewrite Sx. cbn [prod]. rewrite Nat.mul_1_r.
    rewrite (nth_indep _ d (elt x (unravel_index [length xs] 0))) by (rewrite map_length, seq_length; auto).
    rewrite (map_nth (fun k => elt x (unravel_index [length xs] k))), seq_nth by auto. cbn [unravel_index prod plus]. rewrite Nat.div_1_r. reflexivity. }
  assert (Lr : length (ravel x) = length xs). { unfold ravel. rewrite map_length, seq_length, Sx. cbn. lia. }
  assert (Hall : forall v, In v (ravel x) -> if real_row b l then Im v = 0 else Re v = 0).
  { intros v Hv. apply (In_nth _ _ (RtoC 0)) in Hv as (i & Hi & Ev). rewrite Lr in Hi. rewrite (Hrav i _ Hi) in Ev. subst v.
    destruct (nth_error xs i) as [m|] eqn:Em; [|apply nth_error_None in Em; lia].
    specialize (Vx i m Em). rewrite Hidx in Vx. exact (unl_part b l m _ Hb Ha Hl Vx). }
  unfold get_unl_real. rewrite Ex. cbn [bind]. cbv zeta. rewrite real_row_test.
  assert (Hok : exists ys, (if real_row b l
     then (if allclose (map Im (ravel x)) (map (fun _ => 0) (map Im (ravel x))) then Ok (map Re (ravel x)) else Raise AssertionError)
     else (if allclose (map Re (ravel x)) (map (fun _ => 0) (map Re (ravel x))) then Ok (map Im (ravel x)) else Raise AssertionError)) = Ok ys /\
     ys = map (if real_row b l then Re else Im) (ravel x)).
  { destruct (real_row b l); rewrite allclose_zero; eauto; intros y Hy; apply in_map_iff in Hy as (v & <- & Hv); apply (Hall v Hv). }
  destruct Hok as (ys & E & Ey). exists ys. split; [exact E|]. split; [rewrite Ey, map_length; auto|].
  intros i m Hi. assert (Hlt : (i < length xs)%nat) by (apply nth_error_Some; congruence).
  specialize (Vx i m Hi). rewrite Hidx in Vx.
  match goal with |- unl_value _ _ _ ?w => cut (elt x [i] = w); [intros Ew; rewrite <- Ew; exact Vx|] end.
  assert (Hin : In (elt x [i]) (ravel x)) by (rewrite <- (Hrav i (RtoC 0) Hlt); apply nth_In; lia).
  specialize (Hall _ Hin). rewrite Ey. destruct (real_row b l).
  - rewrite (nth_indep _ 0 (Re (RtoC 0))) by (rewrite map_length; lia). rewrite map_nth, Hrav by auto.
    destruct (elt x [i]) as [re im]. cbn in *. subst. reflexivity.
  - rewrite (nth_indep _ 0 (Im (RtoC 0))) by (rewrite map_length; lia). rewrite map_nth, Hrav by auto.
    destruct (elt x [i]) as [re im]. cbn in *. subst. reflexivity.
Qed.

Lemma sorted_select (xs : list Z) idx : StronglySorted Z.lt xs -> StronglySorted lt idx -> Forall (fun i => (i < length xs)%nat) idx ->
  StronglySorted Z.lt (map (fun i => nth i xs 0%Z) idx).
Proof.
  intros Hx Hi F. induction Hi as [|i idx Hi IH Hf]; cbn; constructor.
  - apply IH. inversion F; auto.
  - apply Forall_forall. intros z Hz. apply in_map_iff in Hz as (j & <- & Hj). rewrite Forall_forall in Hf. specialize (Hf j Hj).
    inversion F as [|? ? H1 H2]; subst. rewrite Forall_forall in H2. specialize (H2 j Hj).
    clear - Hx Hf H2. revert i j Hf H2. induction Hx as [|x xs Hx IH Fx]; intros i j Hf H2; [cbn in H2; lia|].
    destruct j as [|j]; [lia|]. cbn in H2. rewrite Forall_forall in Fx. destruct i as [|i]; cbn [nth].
    + apply Fx, nth_In. lia.
    + apply IH; lia.
Qed.

Lemma mats_points_gen b l xs : adapted b -> alternating b -> (l < adim b)%nat ->
  StronglySorted Z.lt xs -> (forall k, In k xs -> (0 <= k)%Z) -> (2 <= length xs)%nat ->
  exists ys pts r, 
    (do y <- get_unl_real b xs (Z.of_nat l); do x_idx <- sampling_points y; full_interval (map (fun i => nth i xs 0%Z) x_idx) (astat b)) = Ok r /\
    length ys = length xs /\
    (forall i m, nth_error xs i = Some m -> unl_value b l m (if real_row b l then (nth i ys 0, 0) else (0, nth i ys 0))) /\
    (forall p, In p pts -> first_largest ys p) /\
    (forall i, (i < length ys)%nat -> exists p, In p pts /\ same_piece ys i p) /\
    StronglySorted Z.lt r /\
    (forall n, In n r <-> In (mirror_index b n) r) /\
    (forall n, (0 <= n)%Z -> In n r <-> (n = 0%Z /\ astat b <> "F"%string) \/ exists p, In p pts /\ nth p xs 0%Z = n).
Proof.
  intros Hb Ha Hl Hx H0 H2. destruct (unl_real b l xs Hb Ha Hl H2) as (ys & Ey & Ly & Vy).
  assert (Hne : ys <> []) by (intros ->; cbn in Ly; lia).
  destruct (sampling_points_spec ys Hne) as (pts & Ep & Sp & Cp & Fp).
  set (sample := map (fun i => nth i xs 0%Z) pts).
  assert (Hlt : Forall (fun i => (i < length xs)%nat) pts). { apply Forall_forall. intros p Hp. destruct (Fp p Hp) as [H _]. lia. }
  assert (Ss : StronglySorted Z.lt sample) by (apply sorted_select; auto).
  assert (S0 : Forall (fun n => (0 <= n)%Z) sample).
  { apply Forall_forall. intros n Hn. apply in_map_iff in Hn as (i & <- & Hi). apply H0, nth_In. rewrite Forall_forall in Hlt. auto. }
  assert (Sin : forall n, In n sample <-> exists p, In p pts /\ nth p xs 0%Z = n).
  { intros n. unfold sample. rewrite in_map_iff. split; intros (p & H & H'); eauto. }
  assert (Sne : sample <> []).
  { destruct (Cp 0%nat ltac:(lia)) as (p & Hp & _). unfold sample. destruct pts; [destruct Hp|discriminate]. }
  rewrite Forall_forall in S0. unfold mirror_index.
  destruct (string_dec (astat b) "F") as [E|E].
  - destruct (full_fermi sample Ss) as (r & Er & Sr & _ & Rin); [apply Forall_forall; auto|].
    exists ys, pts, r. rewrite Ey. cbn [bind]. rewrite Ep. cbn [bind]. fold sample. rewrite E. repeat match goal with |- _ /\ _ => split end; auto.
    + intros n. rewrite !Rin. replace (- (- n - 1) - 1)%Z with n by lia. tauto.
    + intros n Hn. rewrite Rin, <- Sin. split; [|intros [[_ K]|K]; [congruence|auto]].
      intros [K|K]; [auto|]. apply S0 in K. lia.
  - destruct (full_bose (astat b) sample E Ss) as (r & Er & Sr & _ & Rin); [apply Forall_forall; auto|auto|].
    exists ys, pts, r. rewrite Ey. cbn [bind]. rewrite Ep. cbn [bind]. fold sample. repeat match goal with |- _ /\ _ => split end; auto.
    + intros n. rewrite !Rin. rewrite Z.opp_involutive. assert ((- n = 0)%Z <-> n = 0%Z) by lia. tauto.
    + intros n Hn. rewrite Rin, <- Sin. split.
      * intros [K|[K|K]]; auto. left. apply S0 in K. split; [lia|auto].
      * intros [[K _]|K]; auto.
Qed.

Lemma mats_points b l : adapted b -> alternating b -> (l < adim b)%nat ->
  exists ys pts r, sampling_points_matsubara b (Z.of_nat l) = Ok r /\
    length ys = length (start_guesses 1000) /\
    (forall i m, nth_error (start_guesses 1000) i = Some m -> unl_value b l m (if real_row b l then (nth i ys 0, 0) else (0, nth i ys 0))) /\
    (forall p, In p pts -> first_largest ys p) /\
    (forall i, (i < length ys)%nat -> exists p, In p pts /\ same_piece ys i p) /\
    StronglySorted Z.lt r /\
    (forall n, In n r <-> In (mirror_index b n) r) /\
    (forall n, (0 <= n)%Z -> In n r <-> (n = 0%Z /\ astat b <> "F"%string) \/ exists p, In p pts /\ nth p (start_guesses 1000) 0%Z = n).
Proof.
  intros Hb Ha Hl. destruct (start_guesses_spec 1000) as (S1 & S2 & S3 & S4); [lia|lia|].
  unfold sampling_points_matsubara, get_mats_sampling. cbv zeta.
  assert (H0 : forall k, In k (start_guesses 1000) -> (0 <= k)%Z) by (intros k Hk; apply S3 in Hk; lia).
  assert (H2 : (2 <= length (start_guesses 1000))%nat).
  { pose proof (S2 0%Z ltac:(lia)) as A. pose proof (S2 1%Z ltac:(lia)) as B. destruct (start_guesses 1000) as [|x [|y t]]; cbn in *; try lia. }
  clear S2 S3 S4. revert S1 H0 H2. generalize (start_guesses 1000). intros xs S1 H0 H2.
  destruct (adapted_facts b Hb) as (q & _ & _ & _ & _ & _ & _ & _ & _ & Eq & _).
  assert (E : existsb (String.eqb (astat b)) ["F"; "B"; "barB"]%string = true).
  { destruct (even_odd_inv _ _ Eq) as [[-> _]|[-> _]]; reflexivity. }
  rewrite E. cbn [negb]. destruct (Z.ltb_spec (Z.of_nat (adim b) - 1) (Z.of_nat l)); [lia|].
  apply mats_points_gen; auto.
Qed.

Lemma mats_too_large b l : adapted b -> (Z.of_nat (adim b) <= l)%Z -> sampling_points_matsubara b l = Raise RuntimeError.
Proof.
  intros Hb Hl. destruct (adapted_facts b Hb) as (q & _ & _ & _ & _ & _ & _ & _ & _ & Eq & _).
  unfold sampling_points_matsubara.
  assert (E : existsb (String.eqb (astat b)) ["F"; "B"; "barB"]%string = true).
  { destruct (even_odd_inv _ _ Eq) as [[-> _]|[-> _]]; reflexivity. }
  rewrite E. cbn [negb]. destruct (Z.ltb_spec (Z.of_nat (adim b) - 1) l); [reflexivity|lia].
Qed.

(** ** Examples *)
Lemma ex_adapted st : (st = "F" \/ st = "B")%string ->
  exists b, adapter_basis st 3 (ex_sve (1 / 10)) = Ok b /\ adapted b /\ astat b = st /\ alam b = 3 /\ adim b = 2%nat /\ alternating b /\
    (forall x, -1 <= x <= 1 -> ulx b 1 x = Ok x) /\ vgeom (au b) = unit_geom.
Proof.
  intros Hst. destruct (adapter_accepts (ex_sve (1 / 10)) st 3 (1 / 10) (ex_sve_ok _) eq_refl) as [H _].
  destruct (H Hst) as (b & E & Es & El). exists b. split; [exact E|].
  split. { exists (ex_sve (1 / 10)). rewrite Es, El. split; [exact E|apply ex_sve_ok]. }
  split; [auto|]. split; [auto|].
  assert (Hd : adim b = 2%nat). { rewrite (adapter_size _ _ _ _ (1 / 10) (ex_sve_ok _) E eq_refl). cbn [ex_sve ss]. apply ex_nabove. lra. }
  split; [exact Hd|].
  destruct (adapter_inv _ _ _ _ (ex_sve_ok _) E) as (n & q & _ & _ & Hn & Eu & Eas & _).
  assert (n = 2%nat) as ->. { unfold adim in Hd. rewrite Eas, firstn_length in Hd. cbn in Hd, Hn. lia. }
  split.
  - intros l c Hc. rewrite Eu in Hc |- *. cbn in Hc. destruct l as [|[|l]]; cbn in Hc.
    + injection Hc as <-. split; [reflexivity|apply square_has_parity].
    + injection Hc as <-. split; [cbn; ring|apply line_has_parity].
    + destruct l; discriminate.
  - split; [|rewrite Eu; reflexivity].
    destruct (adapter_functions st 3 (ex_sve (1 / 10)) b 1 (fun x => x) (fun x => x) (ex_sve_ok _) E) as (K & _); [lia| | |].
    + intros x Hx. cbn [ex_sve su]. change (Z.of_nat 1) with 1%Z. 
      rewrite <- (line_value x) at 2 by (cbn in Hx; exact Hx). apply (value_cval ex_poly 1 line_col); auto; [apply ex_poly_fresh|cbn; lia].
    + intros x Hx. cbn [ex_sve sv]. change (Z.of_nat 1) with 1%Z. 
      rewrite <- (line_value x) at 2 by (cbn in Hx; exact Hx). apply (value_cval ex_poly 1 line_col); auto; [apply ex_poly_fresh|cbn; lia].
    + intros x Hx. apply (K x Hx).
Qed.
