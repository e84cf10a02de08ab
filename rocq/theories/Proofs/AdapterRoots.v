(** The root search of the irbasis replacement and the points made from it. *)
From Coq Require Import String ZArith Reals Arith Bool Lra Lia Sorting.Sorted Permutation.
From Coquelicot Require Import Coquelicot.
From Coq Require Import List.
From Verif.Model Require Import Base Util Num Roots Poly SVE Basis Adapter.
From Verif.Spec Require Import SRoots SPoly SBasis SAdapter.
From Verif.Proofs Require Import BaseFacts RootsFacts PPolyFacts AdapterFacts.
Import ListNotations.
Open Scope R_scope.
Notation length := List.length.

(** ** The mesh *)
Lemma linspace_sorted a b n : a < b -> (2 <= n)%nat -> StronglySorted Rlt (linspace a b n).
Proof.
  intros Hab Hn. unfold linspace.
  assert (Hd : 0 < (b - a) / INR (n - 1)).
  { apply Rdiv_lt_0_compat; [lra|apply lt_0_INR; lia]. }
  generalize dependent ((b - a) / INR (n - 1)). intros h Hh.
  generalize 0%nat. clear Hn. induction n as [|n IH]; intros s; cbn; constructor; auto.
  apply Forall_forall. intros x Hx. apply in_map_iff in Hx as (i & <- & Hi). apply in_seq in Hi.
  assert (INR s < INR i) by (apply lt_INR; lia). nra.
Qed.

Lemma linspace_first a b n : (2 <= n)%nat -> exists l, linspace a b n = a :: l.
Proof.
  intros Hn. destruct n as [|n]; [lia|]. unfold linspace. cbn [seq map]. eexists. f_equal. cbn [INR]. ring.
Qed.

Lemma tanh_exp x : tanh x = 1 - 2 / (exp (2 * x) + 1).
Proof.
  unfold tanh, sinh, cosh. replace (2 * x) with (x + x) by ring. rewrite exp_plus, exp_Ropp.
  assert (0 < exp x) by apply exp_pos. field. split; nra.
Qed.

Lemma tanh_lt x y : x < y -> tanh x < tanh y.
Proof.
  intros H. rewrite !tanh_exp. assert (exp (2 * x) < exp (2 * y)) by (apply exp_increasing; lra).
  assert (0 < exp (2 * x)) by apply exp_pos.
  assert (/ (exp (2 * y) + 1) < / (exp (2 * x) + 1)); [|lra]. apply Rinv_lt_contravar; nra.
Qed.

Lemma tanh_bounds x : -1 < tanh x < 1.
Proof.
  rewrite tanh_exp. assert (0 < exp (2 * x)) by apply exp_pos.
  assert (0 < / (exp (2 * x) + 1)) by (apply Rinv_0_lt_compat; lra).
  assert (/ (exp (2 * x) + 1) < / 1) by (apply Rinv_lt_contravar; lra). lra.
Qed.

Lemma mesh_sorted : StronglySorted Rlt mesh.
Proof.
  unfold mesh. apply StronglySorted_map with (P := Rlt).
  - intros a b H. apply tanh_lt. apply sinh_lt in H. pose proof PI_RGT_0. nra.
  - apply linspace_sorted; [lra|]. unfold mesh_size. lia.
Qed.

Lemma mesh_inside x : In x mesh -> -1 < x < 1.
Proof. intros H. apply in_map_iff in H as (t & <- & _). apply tanh_bounds. Qed.

Lemma mesh_nonempty : exists l, mesh = tanh (/ 2 * PI * sinh (-3)) :: l.
Proof.
  unfold mesh. destruct (linspace_first (-3) 3 mesh_size) as [l E]; [unfold mesh_size; lia|]. rewrite E. cbn [map]. eauto.
Qed.

(** ** Closing in on a sign change *)
Section Search.
Variable g : R -> res R.
Variable f : R -> R.
Hypothesis Hg : forall x, -1 < x < 1 -> g x = Ok (f x).

Lemma close_in_spec N : forall u_a a b, -1 < b -> b < a -> a < 1 -> 0 < f a * u_a -> f b * u_a <= 0 ->
  a - b <= / 10 ^ 14 * 2 ^ N ->
  exists z lo hi, (forall fuel, (S N <= fuel)%nat -> close_in g u_a fuel a b = Some (Ok z)) /\
    b <= lo < hi /\ hi <= a /\ z = (lo + hi) / 2 /\ hi - lo <= / 10 ^ 14 /\ f lo * u_a <= 0 /\ 0 < f hi * u_a.
Proof.
  induction N as [|N IH]; intros u_a a b H1 H2 H3 Ha Hb Hw.
  - exists (/ 2 * (a + b)), b, a. split; [|repeat match goal with |- _ /\ _ => split end; try lra].
    intros [|fuel] Hf; [lia|]. cbn [close_in]. destruct (Rltb (/ 10 ^ 14) (a - b)) eqn:E; auto.
    apply Rltb_true in E. cbn [pow] in *. lra.
  - destruct (Rltb (/ 10 ^ 14) (a - b)) eqn:E.
    + set (m := / 2 * (a + b)). assert (Hm : b < m < a) by (unfold m; lra).
      assert (Ew : 2 ^ S N = 2 * 2 ^ N) by reflexivity.
      destruct (Rltb 0 (f m * u_a)) eqn:Em.
      * apply Rltb_true in Em.
        destruct (IH u_a m b) as (z & lo & hi & Hz & H); try lra. { unfold m. lra. }
        exists z, lo, hi. split; [|repeat match goal with |- _ /\ _ => split end; try lra].
        intros [|fuel] Hf; [lia|]. cbn [close_in]. rewrite E. fold m. rewrite Hg by lra. cbn [obind].
        rewrite (proj2 (Rltb_true _ _) Em). apply Hz. lia.
      * pose proof Em as Em'. apply Rltb_false in Em.
        destruct (IH u_a a m) as (z & lo & hi & Hz & H); try lra. { unfold m. lra. }
        exists z, lo, hi. split; [|repeat match goal with |- _ /\ _ => split end; try lra].
        intros [|fuel] Hf; [lia|]. cbn [close_in]. rewrite E. fold m. rewrite Hg by lra. cbn [obind].
        rewrite Em'. apply Hz. lia.
    + exists (/ 2 * (a + b)), b, a. pose proof E as E'. apply Rltb_false in E.
      split; [|repeat match goal with |- _ /\ _ => split end; try lra].
      intros [|fuel] Hf; [lia|]. cbn [close_in]. rewrite E'. reflexivity.
Qed.

Lemma fuel_enough w : exists N, w <= / 10 ^ 14 * 2 ^ N.
Proof.
  destruct (Pow_x_infinity 2) with (b := w * 10 ^ 14) as [N HN]; [rewrite Rabs_pos_eq; lra|].
  exists N. specialize (HN N (le_n _)). rewrite Rabs_pos_eq in HN by (apply pow_le; lra).
  assert (0 < / 10 ^ 14) by (apply Rinv_0_lt_compat; apply pow_lt; lra).
  apply Rmult_le_reg_r with (10 ^ 14); [apply pow_lt; lra|]. rewrite (Rmult_comm (/ 10 ^ 14)), Rmult_assoc, Rinv_l, Rmult_1_r by (apply pow_nonzero; lra). lra.
Qed.

Lemma opp_cons h x0 x1 xs : opposite_pairs h (x0 :: x1 :: xs) =
  (if Rlt_dec (h x0 * h x1) 0 then [(x0, x1)] else []) ++ opposite_pairs h (x1 :: xs).
Proof. reflexivity. Qed.

Lemma search_cons fuel x0 x1 xs : search_pairs g fuel (x0 :: x1 :: xs) =
  (run u0 <- Some (g x0); run u1 <- Some (g x1);
   if Rltb (u0 * u1) 0 then
     run z <- close_in g u1 fuel x1 x0; run zs <- search_pairs g fuel (x1 :: xs); Some (Ok (z :: zs))
   else search_pairs g fuel (x1 :: xs)).
Proof. reflexivity. Qed.

Lemma search_spec (xs : list R) : StronglySorted Rlt xs -> (forall x, In x xs -> -1 < x < 1) ->
  exists zs, ends_with (fun fuel => search_pairs g fuel xs) (Ok zs) /\
    Forall2 (narrow_change f) (opposite_pairs f xs) zs.
Proof.
  induction xs as [|x0 [|x1 xs] IH]; intros Hs Hin.
  - exists []. split; [exists 0%nat; reflexivity|constructor].
  - exists []. split; [exists 0%nat; reflexivity|constructor].
  - apply StronglySorted_inv in Hs as [Hs Hf]. inversion Hf as [|? ? H01 _]; subst.
    destruct (IH Hs) as (zs & (n & Hn) & F); [intros x Hx; apply Hin; right; auto|].
    assert (B0 : -1 < x0 < 1) by (apply Hin; left; auto). assert (B1 : -1 < x1 < 1) by (apply Hin; right; left; auto).
    rewrite opp_cons. destruct (Rlt_dec (f x0 * f x1) 0) as [L|L].
    + destruct (fuel_enough (x1 - x0)) as [N HN].
      destruct (close_in_spec N (f x1) x1 x0) as (z & lo & hi & Hz & H1 & H2 & H3 & H4 & H5 & H6); try lra; try nra.
      exists (z :: zs). split.
      * exists (Nat.max n (S N)). intros fuel Hfu. rewrite search_cons, (Hg x0), (Hg x1) by auto. cbn [obind].
        rewrite (proj2 (Rltb_true _ _) L). rewrite Hz by lia. cbn [obind].
        rewrite (Hn fuel ltac:(lia)). reflexivity.
      * cbn [app]. constructor; auto. unfold narrow_change. cbn [fst snd]. split; [lra|]. exists lo, hi.
        split; [auto|]. split; [auto|]. split; [auto|]. split; [auto|]. split; [|intros E; rewrite E in H6; lra].
        destruct (Rtotal_order (f x1) 0) as [C|[C|C]]; [|rewrite C in H6; lra|]; nra.
    + exists zs. cbn [app]. split; auto. exists n. intros fuel Hfu. rewrite search_cons, (Hg x0), (Hg x1) by auto. cbn [obind].
      assert (Lf : Rltb (f x0 * f x1) 0 = false) by (apply Rltb_false; lra). rewrite Lf. apply (Hn fuel Hfu).
Qed.

Lemma opposite_in xs p : In p (opposite_pairs f xs) -> In (fst p) xs /\ In (snd p) xs.
Proof.
  induction xs as [|x0 [|x1 xs] IH]; try (intros []). rewrite opp_cons. intros H. apply in_app_or in H as [H|H].
  - destruct (Rlt_dec _ _); [|destruct H]. destruct H as [<-|[]]. cbn [fst snd]. split; [left; auto|right; left; auto].
  - destruct (IH H) as [H1 H2]. split; right; auto.
Qed.

Lemma zeros_sorted xs : forall zs, StronglySorted Rlt xs ->
  Forall2 (fun (p : R * R) z => fst p < z < snd p) (opposite_pairs f xs) zs -> StronglySorted Rlt zs.
Proof.
  induction xs as [|x0 [|x1 xs] IH]; intros zs Hs F; [inversion F; constructor|inversion F; constructor|].
  apply StronglySorted_inv in Hs as [Hs Hf]. rewrite opp_cons in F.
  destruct (Rlt_dec (f x0 * f x1) 0) as [L|L]; [|apply IH; auto].
  cbn [app] in F. inversion F as [|p z ps zs' Hz F']; subst. constructor; [apply IH; auto|].
  apply Forall_forall. intros y Hy. destruct (Forall2_in_r _ _ _ _ F' Hy) as (q & Hq & Hy').
  cbn [fst snd] in *. apply (opposite_in (x1 :: xs)) in Hq as [Hq _].
  assert (x1 <= fst q). { destruct Hq as [<-|Hq]; [lra|]. apply StronglySorted_inv in Hs as [_ Hs]. rewrite Forall_forall in Hs. specialize (Hs _ Hq). lra. }
  lra.
Qed.

Lemma find_roots_spec :
  exists zs, ends_with (find_roots g) (Ok zs) /\ Forall2 (narrow_change f) (opposite_pairs f mesh) zs /\
    StronglySorted Rlt zs /\ Forall (fun z => -1 < z < 1) zs.
Proof.
  destruct (search_spec mesh mesh_sorted mesh_inside) as (zs & E & F). exists zs. split; [exact E|]. split; [exact F|].
  split.
  - apply zeros_sorted with (xs := mesh); [apply mesh_sorted|]. clear E. induction F as [|p z ps zs Hz F IH]; constructor; auto. apply Hz.
  - apply Forall_forall. intros z Hz. destruct (Forall2_in_r _ _ _ _ F Hz) as (p & Hp & (Hb & _)).
    apply opposite_in in Hp as [H1 H2]. apply mesh_inside in H1. apply mesh_inside in H2. lra.
Qed.

End Search.

(** With a continuous function there is a zero next to every point returned. *)
Lemma narrow_zero f p z : (forall x, fst p <= x <= snd p -> continuity_pt f x) -> narrow_change f p z ->
  exists x, fst p <= x <= snd p /\ f x = 0 /\ Rabs (x - z) <= / 10 ^ 14 / 2.
Proof.
  intros Hc (Hz & lo & hi & H1 & H2 & E & Hw & Hs & Hh).
  assert (exists x, lo <= x <= hi /\ f x = 0) as (x & Hx & Ex).
  { destruct (Req_dec (f lo) 0) as [C|C]; [exists lo; split; [lra|auto]|].
    assert (f lo * f hi < 0) as L. { destruct (Rle_lt_or_eq_dec _ _ Hs) as [L|L]; auto. apply Rmult_integral in L as [L|L]; contradiction. }
    destruct (Rtotal_order (f lo) 0) as [D|[D|D]]; [|contradiction|].
    - destruct (Ranalysis5.IVT_interv f lo hi) as (x & Hx & Ex); [intros; apply Hc; lra|lra|auto|nra|eauto].
    - destruct (Ranalysis5.IVT_interv (fun x => - f x) lo hi) as (x & Hx & Ex); [intros; apply continuity_pt_opp, Hc; lra|lra|lra|nra|].
      exists x. split; auto. lra. }
  exists x. split; [lra|]. split; auto. subst z. apply Rabs_le. lra.
Qed.

(** Zeros that are mesh points are missed. *)
Lemma mesh_zero_missed : exists m, In m mesh /\ -1 < m < 1 /\ ends_with (find_roots (fun x => Ok (x - m))) (Ok []).
Proof.
  destruct mesh_nonempty as [l E]. set (m := tanh _) in E. exists m.
  assert (Hm : In m mesh) by (rewrite E; left; auto). split; [auto|]. split; [apply mesh_inside; auto|].
  destruct (find_roots_spec (fun x => Ok (x - m)) (fun x => x - m)) as (zs & Hz & F & _); [auto|].
  assert (opposite_pairs (fun x => x - m) mesh = []) as E0.
  { assert (forall xs, (forall x, In x xs -> m <= x) -> opposite_pairs (fun x => x - m) xs = []) as G.
    { induction xs as [|x0 [|x1 xs] IH]; intros H; [reflexivity|reflexivity|]. rewrite opp_cons.
      rewrite IH by (intros; apply H; right; auto).
      destruct (Rlt_dec _ _) as [L|L]; [|reflexivity]. exfalso.
      pose proof (H x0 (or_introl eq_refl)). pose proof (H x1 (or_intror (or_introl eq_refl))). nra. }
    apply G. intros x Hx. pose proof mesh_sorted as Hs. rewrite E in Hs, Hx. apply StronglySorted_inv in Hs as [_ Hs].
    rewrite Forall_forall in Hs. destruct Hx as [<-|Hx]; [lra|]. specialize (Hs _ Hx). lra. }
  rewrite E0 in F. inversion F; subst. exact Hz.
Qed.

(** ** Midpoints *)
Lemma midpoints_interlaced nodes : nodes <> [] -> StronglySorted Rlt nodes -> interlaced nodes (midpoints nodes).
Proof.
  intros Hne Hs. assert (Hl : length (midpoints nodes) = (length nodes - 1)%nat).
  { unfold midpoints. rewrite map2_length, init_length. destruct nodes; [congruence|]. cbn [tl length]. lia. }
  split; [destruct nodes; [congruence|]; cbn [length] in *; lia|].
  intros i Hi. rewrite Hl in Hi.
  assert (nth i (midpoints nodes) 0 = / 2 * (nth i nodes 0 + nth (S i) nodes 0)) as ->.
  { unfold midpoints. rewrite (map2_nth _ _ _ i 0 0 0).
    - rewrite init_nth by lia. destruct nodes; [congruence|]. reflexivity.
    - rewrite init_length. lia.
    - destruct nodes; [congruence|]. cbn [tl length] in *. lia. }
  assert (nth i nodes 0 < nth (S i) nodes 0) by (apply PPolyFacts.sorted_nth_lt; auto; lia). lra.
Qed.

Lemma map2_app {A B D} (h : A -> B -> D) l1 : forall m1 l2 m2, length l1 = length m1 ->
  map2 h (l1 ++ l2) (m1 ++ m2) = map2 h l1 m1 ++ map2 h l2 m2.
Proof. induction l1 as [|a l1 IH]; intros [|b m1] l2 m2 H; cbn in *; try lia; auto. rewrite IH by lia. reflexivity. Qed.

Lemma map2_rev {A B D} (h : A -> B -> D) l : forall m, length l = length m -> map2 h (rev l) (rev m) = rev (map2 h l m).
Proof.
  induction l as [|a l IH]; intros [|b m] H; cbn in *; try lia; auto.
  rewrite map2_app by (rewrite !rev_length; lia). rewrite IH by lia. reflexivity.
Qed.

Lemma map2_swap {A D} (h h' : A -> A -> D) l : forall m, (forall a b, h a b = h' b a) -> map2 h l m = map2 h' m l.
Proof. induction l as [|a l IH]; intros [|b m] H; cbn; auto. rewrite H, (IH m H). reflexivity. Qed.

Lemma map2_map_both {A B D E F} (h : A -> B -> D) (p : E -> A) (q : F -> B) l : forall m, map2 h (map p l) (map q m) = map2 (fun a b => h (p a) (q b)) l m.
Proof. induction l as [|a l IH]; intros [|b m]; cbn; auto. rewrite IH. reflexivity. Qed.

Lemma tl_rev {A} (l : list A) : tl (rev l) = rev (init l).
Proof.
  destruct l as [|a l] using rev_ind; [reflexivity|]. rewrite rev_app_distr. cbn. unfold init. rewrite removelast_last. reflexivity.
Qed.
Lemma init_rev {A} (l : list A) : init (rev l) = rev (tl l).
Proof. rewrite <- (rev_involutive (init (rev l))). rewrite <- tl_rev, rev_involutive. reflexivity. Qed.

Lemma map_map2 {A B D E} (k : D -> E) (h : A -> B -> D) l : forall m, map k (map2 h l m) = map2 (fun a b => k (h a b)) l m.
Proof. induction l as [|a l IH]; intros [|b m]; cbn; auto. rewrite IH. reflexivity. Qed.

Lemma midpoints_symmetric nodes : map Ropp (rev nodes) = nodes -> map Ropp (rev (midpoints nodes)) = midpoints nodes.
Proof.
  intros H. unfold midpoints. 
  assert (Hl : length (init nodes) = length (tl nodes)) by (rewrite init_length; destruct nodes; cbn; lia).
  rewrite <- map2_rev by auto. rewrite <- tl_rev, <- init_rev, map_map2.
  rewrite <- H at 3 4. rewrite init_map. assert (tl (map Ropp (rev nodes)) = map Ropp (tl (rev nodes))) as -> by (destruct (rev nodes); reflexivity).
  rewrite map2_map_both. rewrite (map2_swap _ (fun a b => / 2 * (- a + - b))); [reflexivity|]. intros; ring.
Qed.

Lemma sorted_perm_rsort l m : Permutation l m -> StronglySorted Rlt m -> rsort l = m.
Proof.
  intros Hp Hs. apply sorted_perm_eq with (le := Rle).
  - intros; lra.
  - apply rsort_sorted.
  - eapply StronglySorted_impl; [|exact Hs]. intros; lra.
  - eapply Permutation_trans; [|exact Hp]. apply Permutation_sym, rsort_perm.
Qed.

(** Points of the whole interval from those of the positive half. *)
Lemma half_nodes (half mid : list R) : StronglySorted Rlt half -> Forall (fun z => 0 < z < 1) half -> (mid = [] \/ mid = [0]) ->
  let nodes := -1 :: map Ropp (rev half) ++ mid ++ half ++ [1] in
  StronglySorted Rlt nodes /\ map Ropp (rev nodes) = nodes /\
  Permutation (-1 :: map Ropp half ++ mid ++ half ++ [1]) nodes.
Proof.
  intros Hs Hb Hm nodes. rewrite Forall_forall in Hb. split; [|split].
  - assert (H1 : StronglySorted Rlt (half ++ [1])).
    { apply StronglySorted_app; auto; [constructor; constructor|]. intros a b Ha [<-|[]]. apply Hb; auto. }
    assert (H2 : StronglySorted Rlt (mid ++ half ++ [1])).
    { destruct Hm as [->| ->]; auto. constructor; auto. apply Forall_forall. intros x Hx. apply in_app_or in Hx as [Hx|[<-|[]]]; [apply Hb in Hx|]; lra. }
    assert (H3 : forall x, In x (mid ++ half ++ [1]) -> 0 <= x).
    { intros x Hx. apply in_app_or in Hx as [Hx|Hx]; [destruct Hm as [->| ->]; [destruct Hx|destruct Hx as [<-|[]]; lra]|].
      apply in_app_or in Hx as [Hx|[<-|[]]]; [apply Hb in Hx|]; lra. }
    assert (H4 : forall x, In x (map Ropp (rev half)) -> -1 < x < 0).
    { intros x Hx. apply in_map_iff in Hx as (y & <- & Hy). apply in_rev in Hy. apply Hb in Hy. lra. }
    constructor.
    + apply StronglySorted_app; auto.
      * rewrite map_rev. apply StronglySorted_rev with (P := fun a b => b < a); auto.
        apply StronglySorted_map with (P := Rlt); auto.
      * intros a b Ha Hb'. apply H4 in Ha. apply H3 in Hb'. lra.
    + apply Forall_forall. intros x Hx. apply in_app_or in Hx as [Hx|Hx]; [apply H4 in Hx|apply H3 in Hx]; lra.
  - assert (E : rev nodes = 1 :: rev half ++ mid ++ map Ropp half ++ [-1]).
    { subst nodes. cbn [rev]. rewrite !rev_app_distr. cbn [rev app]. rewrite <- map_rev, rev_involutive, <- !app_assoc. 
      destruct Hm as [->| ->]; reflexivity. }
    rewrite E. subst nodes. cbn [map]. rewrite !map_app, map_map. cbn [map].
    rewrite (map_ext (fun x => - - x) (fun x => x)) by (intros; ring). rewrite map_id.
    replace (- -1) with 1 by ring. destruct Hm as [->| ->]; cbn [map app]; rewrite ?Ropp_0; reflexivity.
  - subst nodes. constructor. apply Permutation_app_tail. apply Permutation_map. apply Permutation_rev.
Qed.
