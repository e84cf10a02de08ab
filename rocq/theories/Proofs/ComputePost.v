(** Gauge fixing and post-processing of SamplingSVE. *)
From Coq Require Import String ZArith Arith Bool Reals Lra Lia Psatz.
From Coquelicot Require Import Coquelicot.
From Coq Require Import List Sorting.Sorted.
From Verif.Model Require Import Base Num Gauss Poly SVE Compute.
From Verif.Spec Require Import SGauss SPoly SFT SSVE SBasis SCompute.
From Verif.Proofs Require Import BaseFacts SumFacts IntFacts LegFacts GaussFacts GaussExamples PPolyFacts PPolyInt BasisPhys ComputeNodes.
Import ListNotations.
Open Scope R_scope.
Notation length := List.length.
Arguments legP : simpl never.

Definition col0 : col := Col (fun _ _ => 0) 0.

Lemma vcall_cval p x : geom_ok (vgeom p) -> (0 < glen (vgeom p))%nat -> gxmin (vgeom p) <= x <= gxmax (vgeom p) ->
  vcall p x = Ok (map (fun c => cval (vgeom p) c x) (vcols p)).
Proof.
  intros Hg Hl Hx. unfold vcall. rewrite split_ok by auto. cbn [bind fst snd].
  destruct (glen (vgeom p)) eqn:E; [lia|]. rewrite <- E. reflexivity.
Qed.

Lemma vcall_out p x : (x < gxmin (vgeom p) \/ gxmax (vgeom p) < x) -> vcall p x = Raise ValueError.
Proof. intros H. unfold vcall. rewrite split_out by auto. reflexivity. Qed.

Lemma cval_scale g c p x : cval g (scale_col c p) x = c * cval g p x.
Proof. unfold cval, scale_col. cbn [cdat]. rewrite legval_scal. ring. Qed.

Lemma rsum_nth l : rsum l = sumn (length l) (fun i => nth i l 0).
Proof. induction l as [|a l IH]; [reflexivity|]. rewrite rsum_cons. cbn [List.length]. rewrite sumn_shift, IH. reflexivity. Qed.

Definition expand (r : sve_result) (x y : R) : R :=
  sumn (length (ss r)) (fun l => nth l (ss r) 0 * cval (vgeom (su r)) (nth l (vcols (su r)) col0) x *
                                  cval (vgeom (sv r)) (nth l (vcols (sv r)) col0) y).

Lemma sve_sum_ok r x y : fresh (su r) -> fresh (sv r) ->
  length (vcols (su r)) = length (ss r) -> length (vcols (sv r)) = length (ss r) ->
  gxmin (vgeom (su r)) <= x <= gxmax (vgeom (su r)) -> gxmin (vgeom (sv r)) <= y <= gxmax (vgeom (sv r)) ->
  sve_sum r x y = Ok (expand r x y).
Proof.
  intros (Hgu & Hou & Hlu) (Hgv & Hov & Hlv) Lu Lv Hx Hy. unfold sve_sum.
  rewrite !vcall_cval by (auto; lia). cbn [bind]. f_equal. unfold expand.
  rewrite rsum_nth, !map2_length, !map_length, Lu, Lv, !Nat.min_id. apply sumn_ext. intros l Hl.
  rewrite (map2_nth _ _ _ _ 0 0 0) by (rewrite ?map2_length, ?map_length; lia).
  rewrite (map2_nth _ _ _ _ 0 0 0) by (rewrite ?map_length; lia).
  rewrite !(nth_map_in _ _ _ col0) by lia. reflexivity.
Qed.

(** * Gauge *)
Lemma np_sign_cases x : (0 < x /\ np_sign x = 1) \/ (x < 0 /\ np_sign x = -1) \/ (x = 0 /\ np_sign x = 0).
Proof.
  unfold np_sign. destruct (Rltb 0 x) eqn:E1; [apply Rltb_true in E1; auto|].
  destruct (Rltb x 0) eqn:E2; [apply Rltb_true in E2; auto|].
  apply Rltb_false in E1, E2. right. right. split; [lra|reflexivity].
Qed.

Lemma map2_map_r {A B C} (h : A -> B -> C) (k : A -> B) l : map2 h l (map k l) = map (fun a => h a (k a)) l.
Proof. induction l; cbn; congruence. Qed.

Definition gauged (g : geom) (c : col) : option col :=
  let s := np_sign (cval g c 1) in if Reqb s 0 then None else Some (scale_col (1 / s) c).

Lemma canonicalize_ok u v : fresh u -> gxmin (vgeom u) <= 1 <= gxmax (vgeom u) ->
  canonicalize u v = Ok (map (gauged (vgeom u)) (vcols u),
                         map2 (fun p s => scale_col s p) (vcols v) (map (fun c => np_sign (cval (vgeom u) c 1)) (vcols u))).
Proof.
  intros (Hg & Ho & Hl) H1. unfold canonicalize. rewrite vcall_cval by (auto; lia). cbn [bind].
  rewrite !map_map, map2_map_r. reflexivity.
Qed.

Lemma canonicalize_outside u v : (1 < gxmin (vgeom u) \/ gxmax (vgeom u) < 1) -> canonicalize u v = Raise ValueError.
Proof. intros H. unfold canonicalize. rewrite vcall_out by auto. reflexivity. Qed.

Lemma gauge_fixed u v cu cv : fresh u -> fresh v -> length (vcols u) = length (vcols v) ->
  gxmin (vgeom u) <= 1 <= gxmax (vgeom u) -> canonicalize u v = Ok (cu, cv) ->
  length cu = length (vcols u) /\ length cv = length (vcols v) /\
  forall l f h, represents u l f -> represents v l h ->
    (f 1 <> 0 -> exists p q f' h', nth_error cu l = Some (Some p) /\ nth_error cv l = Some q /\
       represents (VPoly (vgeom u) [p]) 0 f' /\ represents (VPoly (vgeom v) [q]) 0 h' /\
       0 < f' 1 /\ forall x y, f' x * h' y = f x * h y) /\
    (f 1 = 0 -> nth_error cu l = Some None).
Proof.
  intros Hu Hv Hlen H1 H. rewrite canonicalize_ok in H by auto. injection H as <- <-.
  split; [apply map_length|]. split; [rewrite map2_length, map_length; lia|].
  intros l f h Hf Hh. destruct Hu as (Hg & Ho & Hl), Hv as (Hg' & Ho' & Hl').
  assert (Hll : (l < length (vcols u))%nat).
  { destruct (nth_error (vcols u) l) eqn:E; [apply nth_error_Some; congruence|].
    specialize (Hf 1 H1). unfold value in Hf. rewrite split_ok in Hf by auto. cbn [bind] in Hf.
    rewrite BasisPhys.pyindex_nat, E in Hf. discriminate. }
  apply (represents_cval u l f) in Hf as (c & Ec & Hc); auto; try lia.
  apply (represents_cval v l h) in Hh as (d & Ed & Hd); auto; try lia.
  rewrite nth_error_map, Ec. cbn [option_map]. unfold gauged. rewrite (Hc 1 H1).
  assert (Eq : nth_error (map2 (fun p s => scale_col s p) (vcols v) (map (fun c => np_sign (cval (vgeom u) c 1)) (vcols u))) l =
               Some (scale_col (np_sign (f 1)) d)).
  { rewrite (nth_error_nth' _ col0) by (rewrite map2_length, map_length; lia).
    rewrite (map2_nth _ _ _ _ col0 0 col0) by (rewrite ?map_length; lia).
    rewrite (nth_map_in _ _ _ col0) by lia. apply (nth_error_nth _ _ col0) in Ec, Ed. rewrite Ec, Ed, (Hc 1 H1). reflexivity. }
  rewrite Eq. split.
  - intros Hne. destruct (np_sign_cases (f 1)) as [[Hp Es]|[[Hp Es]|[Hp Es]]]; [| |lra]; rewrite Es.
    + exists (scale_col (1 / 1) c), (scale_col 1 d), f, h.
      rewrite (proj2 (Reqb_false 1 0)) by lra. repeat (split; [reflexivity|]). split; [|split; [|split; [lra|auto]]].
      * apply represents_cval; cbn [vgeom vcols List.length]; try (lia || auto). eexists. split; [reflexivity|].
        intros x Hx. rewrite cval_scale, Hc by auto. field.
      * apply represents_cval; cbn [vgeom vcols List.length]; try (lia || auto). eexists. split; [reflexivity|].
        intros x Hx. rewrite cval_scale, Hd by auto. ring.
    + exists (scale_col (1 / -1) c), (scale_col (-1) d), (fun x => - f x), (fun y => - h y).
      rewrite (proj2 (Reqb_false (-1) 0)) by lra. repeat (split; [reflexivity|]). split; [|split; [|split; [lra|]]].
      * apply represents_cval; cbn [vgeom vcols List.length]; try (lia || auto). eexists. split; [reflexivity|].
        intros x Hx. rewrite cval_scale, Hc by auto. field.
      * apply represents_cval; cbn [vgeom vcols List.length]; try (lia || auto). eexists. split; [reflexivity|].
        intros x Hx. rewrite cval_scale, Hd by auto. ring.
      * intros. ring.
  - intros E0. destruct (np_sign_cases (f 1)) as [[Hp Es]|[[Hp Es]|[Hp Es]]]; try lra. rewrite Es, (proj2 (Reqb_true 0 0) eq_refl). reflexivity.
Qed.

(** * post-processing *)
Lemma all_some_spec {A} (l : list (option A)) r : all_some l = Some r <-> l = map Some r.
Proof.
  revert r. induction l as [|[a|] l IH]; intros r; cbn [all_some].
  - split; [intros [= <-]; reflexivity|destruct r; [auto|discriminate]].
  - destruct (all_some l) as [t|] eqn:E.
    + split; [intros [= <-]; cbn; f_equal; apply IH; auto|]. destruct r as [|b r]; [discriminate|]. cbn. intros [= -> E'].
      apply IH in E'. congruence.
    + split; [discriminate|]. destruct r as [|b r]; [discriminate|]. cbn. intros [= -> E']. apply IH in E'. discriminate.
  - split; [discriminate|]. destruct r; discriminate.
Qed.

Lemma map2_const {A B C} (h : A -> B -> C) b l : map2 h l (map (fun _ => b) l) = map (fun a => h a b) l.
Proof. apply map2_map_r. Qed.

Lemma poly_init_cols order nseg dat knots p : poly_init order nseg dat knots None None = Ok p ->
  vcols p = map (fun d => Col d 0) dat.
Proof.
  unfold poly_init. destruct (negb _); [discriminate|]. destruct (negb _); [discriminate|]. cbn [bind].
  intros [= <-]. cbn [vcols]. apply (map2_map_r Col (fun _ => 0)).
Qed.

(** The object made by the constructor is consistent. *)
Lemma sampling_init_inv legendre K eps ng S : sampling_init legendre K eps ng = Ok S ->
  legendre (s_n S) = Ok (s_rule S) /\ sk_segs_x K = Ok (s_segs_x S) /\ sk_segs_y K = Ok (s_segs_y S) /\
  piecewise (s_rule S) (s_segs_x S) = Ok (s_gx S) /\ piecewise (s_rule S) (s_segs_y S) = Ok (s_gy S) /\
  s_mat S = sk_matrix K /\ s_eps S = eps /\ s_hint S = sk_nsvals K /\
  s_n S = match ng with None => sk_ngauss K | Some n => n end.
Proof.
  unfold sampling_init. set (n := match ng with None => _ | Some _ => _ end).
  destruct (legendre n) as [r|] eqn:E1; [|discriminate]. cbn [bind].
  destruct (sk_segs_x K) as [sx|] eqn:E2; [|discriminate]. cbn [bind].
  destruct (sk_segs_y K) as [sy|] eqn:E3; [|discriminate]. cbn [bind].
  destruct (piecewise r sx) as [gx|] eqn:E4; [|discriminate]. cbn [bind].
  destruct (piecewise r sy) as [gy|] eqn:E5; [|discriminate]. cbn [bind].
  intros [= <-]. cbn. auto 10.
Qed.

Lemma chained_sorted l : chained Rlt l -> StronglySorted Rlt l.
Proof.
  induction l as [|a [|b l] IH]; intros H; [constructor|repeat constructor|].
  destruct H as [Hab H]. specialize (IH H). constructor; auto. inversion IH as [|? ? Hs Hf]; subst.
  constructor; auto. eapply Forall_impl; [|exact Hf]. cbn. intros; lra.
Qed.

Lemma piecewise_sorted r l q : piecewise r l = Ok q -> StronglySorted Rlt l.
Proof.
  intros H. apply chained_sorted. destruct (Classical_Prop.classic (chained Rlt l)) as [Hc|Hc]; auto.
  apply (piecewise_raises r) in Hc. congruence.
Qed.

Section Post.
Variables (legendre : nat -> res rule) (K : skern) (eps : R) (ng : option nat) (S : ssve).
Hypothesis HS : sampling_init legendre K eps ng = Ok S.
Hypothesis Hr : gauss_ok (s_n S) (s_rule S).
Hypothesis Hx2 : (2 <= length (s_segs_x S))%nat.
Hypothesis Hy2 : (2 <= length (s_segs_y S))%nat.

Notation n := (s_n S).
Notation sx := (s_segs_x S).
Notation sy := (s_segs_y S).
Notation mx := (length (s_segs_x S) - 1)%nat.
Notation my := (length (s_segs_y S) - 1)%nat.
Definition ucol (u : list R) : col := Col (collocate n (s_rule S) sx (sqrtw (s_gx S)) u) 0.
Definition vcol (v : list R) : col := Col (collocate n (s_rule S) sy (sqrtw (s_gy S)) v) 0.

Lemma edges_x : edges_ok sx.
Proof. split; auto. apply sampling_init_inv in HS as (_ & _ & _ & H & _). eapply piecewise_sorted; eauto. Qed.
Lemma edges_y : edges_ok sy.
Proof. split; auto. apply sampling_init_inv in HS as (_ & _ & _ & _ & H & _). eapply piecewise_sorted; eauto. Qed.

Lemma post_struct us s vs r : length us = length s -> length vs = length s ->
  sampling_post S (us, s, vs) = Ok (Some r) ->
  fresh (su r) /\ fresh (sv r) /\ gknots (vgeom (su r)) = sx /\ gknots (vgeom (sv r)) = sy /\
  glen (vgeom (su r)) = n /\ glen (vgeom (sv r)) = n /\ ss r = s /\ seps r = Some (s_eps S) /\
  gxmin (vgeom (su r)) <= 1 <= gxmax (vgeom (su r)) /\
  exists sg, length sg = length s /\ Forall (fun c => c = 1 \/ c = -1) sg /\
    vcols (su r) = map2 (fun c u => scale_col (1 / c) (ucol u)) sg us /\
    vcols (sv r) = map2 (fun c v => scale_col c (vcol v)) sg vs /\
    forall l, (l < length s)%nat -> 0 < cval (vgeom (su r)) (nth l (vcols (su r)) col0) 1.
Proof.
  intros Lu Lv H. unfold sampling_post in H.
  destruct (poly_init n mx _ sx None None) as [u|] eqn:Eu; [|discriminate]. cbn [bind] in H.
  destruct (poly_init n my _ sy None None) as [v|] eqn:Ev; [|discriminate]. cbn [bind] in H.
  destruct Hr as (Hn & _).
  destruct (poly_init_ok _ _ _ _ _ _ Eu ltac:(lia) (proj2 edges_x)) as (Gu & Ku & Lu' & Ou).
  destruct (poly_init_ok _ _ _ _ _ _ Ev ltac:(lia) (proj2 edges_y)) as (Gv & Kv & Lv' & Ov).
  apply poly_init_cols in Eu, Ev. rewrite map_map in Eu, Ev. change (vcols u = map ucol us) in Eu. change (vcols v = map vcol vs) in Ev.
  destruct (Rle_dec (gxmin (vgeom u)) 1) as [R1|R1].
  2:{ rewrite canonicalize_outside in H by lra. discriminate. }
  destruct (Rle_dec 1 (gxmax (vgeom u))) as [R2|R2].
  2:{ rewrite canonicalize_outside in H by lra. discriminate. }
  assert (Fu : fresh u) by (split; [auto|split; lia]).
  rewrite canonicalize_ok in H by auto. cbn [bind] in H.
  destruct (all_some _) as [cu|] eqn:Ea; [|discriminate]. injection H as <-. cbn [su sv ss seps vgeom vcols].
  apply all_some_spec in Ea.
  split; [split; [exact Gu|cbn [vgeom]; lia]|]. split; [split; [exact Gv|cbn [vgeom]; lia]|].
  repeat (split; [solve [auto]|]).
  exists (map (fun c => np_sign (cval (vgeom u) c 1)) (vcols u)).
  assert (Hall : forall l, (l < length us)%nat -> exists c, c = np_sign (cval (vgeom u) (ucol (nth l us [])) 1) /\ (c = 1 \/ c = -1) /\
            nth l cu col0 = scale_col (1 / c) (ucol (nth l us [])) /\ 0 < cval (vgeom u) (nth l cu col0) 1).
  { intros l Hl. assert (E : nth l (map (gauged (vgeom u)) (vcols u)) None = nth l (map Some cu) None) by (rewrite Ea; reflexivity).
    assert (Lcu : length cu = length us).
    { apply (f_equal (@List.length _)) in Ea. rewrite !map_length, Eu, map_length in Ea. auto. }
    rewrite (nth_map_in _ _ _ col0) in E by (rewrite Eu, map_length; auto).
    rewrite (nth_map_in _ _ _ col0) in E by lia.
    rewrite Eu, (nth_map_in _ _ _ []) in E by auto. unfold gauged in E.
    exists (np_sign (cval (vgeom u) (ucol (nth l us [])) 1)). split; [reflexivity|].
    set (c := ucol (nth l us [])) in *.
    destruct (np_sign_cases (cval (vgeom u) c 1)) as [[Hp Es]|[[Hp Es]|[Hp Es]]]; rewrite Es in *.
    - rewrite (proj2 (Reqb_false 1 0)) in E by lra. injection E as E. split; [auto|]. rewrite <- E. split; [auto|].
      rewrite cval_scale. lra.
    - rewrite (proj2 (Reqb_false (-1) 0)) in E by lra. injection E as E. split; [auto|]. rewrite <- E. split; [auto|].
      rewrite cval_scale. lra.
    - rewrite (proj2 (Reqb_true 0 0) eq_refl) in E. discriminate. }
  assert (Lcu : length cu = length us).
  { apply (f_equal (@List.length _)) in Ea. rewrite !map_length, Eu, map_length in Ea. auto. }
  split; [rewrite map_length, Eu, map_length; auto|]. split; [|split; [|split]].
  - rewrite Eu, map_map. apply Forall_forall. intros c Hc. apply in_map_iff in Hc as (w & <- & Hw).
    apply (In_nth _ _ []) in Hw as (l & Hl & <-). destruct (Hall l Hl) as (c & -> & Hc & _). auto.
  - apply (nth_ext _ _ col0 col0); [rewrite map2_length, map_length, Eu, map_length; lia|].
    intros l Hl. rewrite Lcu in Hl. destruct (Hall l Hl) as (c & Ec & _ & E & _).
    rewrite (map2_nth _ _ _ _ 0 [] col0) by (rewrite ?map_length, ?Eu, ?map_length; lia).
    rewrite Eu, map_map, (nth_map_in _ _ _ []) by auto. rewrite E, Ec. reflexivity.
  - apply (nth_ext _ _ col0 col0); [rewrite !map2_length, map_length, Ev, Eu, !map_length; lia|].
    intros l Hl. rewrite !map2_length, map_length, Ev, Eu, !map_length in Hl.
    rewrite (map2_nth _ _ _ _ col0 0 col0) by (rewrite ?map_length, ?Eu, ?Ev, ?map_length; lia).
    rewrite (map2_nth _ _ _ _ 0 [] col0) by (rewrite ?map_length, ?Eu, ?map_length; lia).
    rewrite Ev, (nth_map_in vcol _ _ []) by lia. reflexivity.
  - intros l Hl. destruct (Hall l ltac:(lia)) as (c & _ & _ & _ & E). auto.
Qed.
End Post.
