(** No sum of N products approximates a kernel better than its first N singular functions. *)
From Coq Require Import Arith Bool Reals Lra Lia Psatz.
From Verif.Model Require Import Base Num.
From Verif.Proofs Require Import BaseFacts SumFacts.
Open Scope R_scope.

(** * Weighted inner products *)
Section Inner.
Variables (n : nat) (w : nat -> R).
Hypothesis Hw : forall q, (q < n)%nat -> 0 < w q.
Definition inn (f g : nat -> R) : R := sumn n (fun q => w q * (f q * g q)).
Definition orth (d : nat) (e : nat -> nat -> R) : Prop :=
  forall i j, (i < d)%nat -> (j < d)%nat -> inn (e i) (e j) = if Nat.eqb i j then 1 else 0.

Lemma inn_ext f g f' g' : (forall q, (q < n)%nat -> f q = f' q) -> (forall q, (q < n)%nat -> g q = g' q) -> inn f g = inn f' g'.
Proof. intros H1 H2. apply sumn_ext. intros q Hq. rewrite H1, H2 by auto. reflexivity. Qed.
Lemma inn_sym f g : inn f g = inn g f.
Proof. apply sumn_ext. intros; ring. Qed.
Lemma inn_pos f : 0 <= inn f f.
Proof. apply sumn_nonneg. intros q Hq. specialize (Hw q Hq). nra. Qed.
Lemma inn_zero f : inn f f = 0 -> forall q, (q < n)%nat -> f q = 0.
Proof.
  intros H q Hq. destruct (Req_dec (f q) 0) as [|Hne]; auto. exfalso.
  assert (0 < inn f f); [|lra]. pose proof (Hw q Hq) as Hp.
  apply Rlt_le_trans with (w q * (f q * f q)); [apply Rmult_lt_0_compat; auto; nra|].
  unfold inn. clear H. revert q Hq Hne Hp. induction n as [|m IH]; intros q Hq Hne Hp; [lia|]. rewrite sumn_S.
  destruct (Nat.eq_dec q m) as [->|]; [|].
  - assert (0 <= sumn m (fun q => w q * (f q * f q))); [|lra]. apply sumn_nonneg. intros p Hp'. pose proof (Hw p ltac:(lia)). nra.
  - pose proof (Hw m ltac:(lia)). assert (0 <= w m * (f m * f m)) by nra.
    pose proof (IH ltac:(intros; apply Hw; lia) q ltac:(lia) Hne Hp). lra.
Qed.
Lemma inn_comb f c e d h : inn (fun q => f q - sumn d (fun i => c i * e i q)) h = inn f h - sumn d (fun i => c i * inn (e i) h).
Proof.
  unfold inn. transitivity (sumn n (fun q => w q * (f q * h q)) - sumn n (fun q => sumn d (fun i => c i * (w q * (e i q * h q))))).
  - rewrite <- sumn_minus. apply sumn_ext. intros q _.
    rewrite (sumn_ext d (fun i => c i * (w q * (e i q * h q))) (fun i => (w q * h q) * (c i * e i q))) by (intros; ring). rewrite sumn_scal. ring.
  - f_equal. rewrite sumn_swap. apply sumn_ext. intros i _. rewrite sumn_scal. reflexivity.
Qed.
Lemma pythagoras d e f c : orth d e ->
  inn (fun q => f q - sumn d (fun i => c i * e i q)) (fun q => f q - sumn d (fun i => c i * e i q)) =
  inn f f - sumn d (fun i => Rsqr (inn f (e i))) + sumn d (fun i => Rsqr (c i - inn f (e i))).
Proof.
  intros He. rewrite inn_comb, (inn_sym f), inn_comb.
  rewrite (sumn_ext d (fun i => c i * inn (e i) (fun q => f q - sumn d (fun i0 => c i0 * e i0 q))) (fun i => c i * (inn f (e i) - c i))).
  2:{ intros i Hi. rewrite (inn_sym (e i)), inn_comb. f_equal. f_equal.
      rewrite (sumn_single _ _ i Hi); [rewrite He, Nat.eqb_refl by auto; ring|]. intros j Hj Hne. rewrite He by auto. destruct (Nat.eqb_spec j i); [lia|ring]. }
  rewrite (sumn_ext d (fun i => c i * inn (e i) f) (fun i => c i * inn f (e i))) by (intros i _; rewrite inn_sym; reflexivity).
  rewrite (sumn_ext d (fun i => Rsqr (c i - inn f (e i))) (fun i => Rsqr (inn f (e i)) - (c i * inn f (e i) + c i * (inn f (e i) - c i)))) by (intros; unfold Rsqr; ring).
  rewrite sumn_minus, sumn_plus. ring.
Qed.
Lemma bessel d e f : orth d e -> sumn d (fun i => Rsqr (inn f (e i))) <= inn f f.
Proof.
  intros He. pose proof (pythagoras d e f (fun i => inn f (e i)) He) as H. cbv beta in H.
  rewrite (sumn_zero d (fun i => Rsqr (inn f (e i) - inn f (e i)))) in H by (intros; unfold Rsqr; ring).
  pose proof (inn_pos (fun q => f q - sumn d (fun i => inn f (e i) * e i q))). lra.
Qed.

(** Orthonormal functions with the same span. *)
Lemma gram_schmidt N (b : nat -> nat -> R) : exists d e, (d <= N)%nat /\ orth d e /\
  forall j, (j < N)%nat -> exists c, forall q, (q < n)%nat -> b j q = sumn d (fun i => c i * e i q).
Proof.
  induction N as [|N (d & e & Hd & He & Hb)].
  - exists 0%nat, (fun _ _ => 0). split; [lia|]. split; [intros i j Hi; lia|]. intros j Hj; lia.
  - set (g := fun q => b N q - sumn d (fun i => inn (b N) (e i) * e i q)).
    assert (Og : forall i, (i < d)%nat -> inn g (e i) = 0).
    { intros i Hi. unfold g. rewrite inn_comb. rewrite (sumn_single _ _ i Hi); [rewrite He, Nat.eqb_refl by auto; ring|].
      intros j Hj Hne. rewrite He by auto. destruct (Nat.eqb_spec j i); [lia|ring]. }
    destruct (Req_dec (inn g g) 0) as [Hz|Hz].
    + exists d, e. split; [lia|]. split; [exact He|]. intros j Hj. destruct (Nat.eq_dec j N) as [->|]; [|apply Hb; lia].
      exists (fun i => inn (b N) (e i)). intros q Hq. pose proof (inn_zero g Hz q Hq) as E. unfold g in E. lra.
    + pose proof (inn_pos g) as Hp. assert (Hp' : 0 < inn g g) by lra. pose proof (sqrt_lt_R0 _ Hp') as Hs. pose proof (sqrt_sqrt _ Hp) as Hss.
      set (v := fun q => g q / sqrt (inn g g)).
      set (e' := fun i => if Nat.eqb i d then v else e i).
      assert (Ev : forall h, inn v h = inn g h / sqrt (inn g g)).
      { intros h. unfold inn at 1, v. rewrite (sumn_ext n _ (fun q => (/ sqrt (inn g g)) * (w q * (g q * h q)))) by (intros; field; lra).
        rewrite sumn_scal. fold (inn g h). field. lra. }
      exists (S d), e'. split; [lia|]. split.
      * intros i j Hi Hj. unfold e'. destruct (Nat.eqb_spec i d) as [->|Hi'], (Nat.eqb_spec j d) as [->|Hj'].
        -- rewrite Nat.eqb_refl, Ev, inn_sym, Ev. apply (Rmult_eq_reg_l (sqrt (inn g g) * sqrt (inn g g))); [|nra]. field_simplify; lra.
        -- rewrite Ev, Og by lia. destruct (Nat.eqb_spec d j); [lia|]. field. lra.
        -- rewrite inn_sym, Ev, Og by lia. destruct (Nat.eqb_spec i d); [lia|]. field. lra.
        -- apply He; lia.
      * intros j Hj. destruct (Nat.eq_dec j N) as [->|].
        -- exists (fun i => if Nat.eqb i d then sqrt (inn g g) else inn (b N) (e i)). intros q Hq. rewrite sumn_S. unfold e'.
           rewrite !Nat.eqb_refl. rewrite (sumn_ext d _ (fun i => inn (b N) (e i) * e i q)).
           ++ unfold v, g. field. fold g. lra.
           ++ intros i Hi. destruct (Nat.eqb_spec i d); [lia|reflexivity].
        -- destruct (Hb j ltac:(lia)) as (c & Hc). exists (fun i => if Nat.eqb i d then 0 else c i). intros q Hq. rewrite sumn_S, Nat.eqb_refl, Hc by auto.
           rewrite (sumn_ext d _ (fun i => (if Nat.eqb i d then 0 else c i) * e' i q)); [ring|].
           intros i Hi. unfold e'. destruct (Nat.eqb_spec i d); [lia|reflexivity].
Qed.
End Inner.

(** * The remainder of a decomposition as an operator *)
Section Remainder.
Variables (nx ny : nat) (wx wy : nat -> R) (k : nat -> nat -> R).
Hypothesis Hx : forall p, (p < nx)%nat -> 0 < wx p.
Hypothesis Hy : forall q, (q < ny)%nat -> 0 < wy q.
Definition app (z : nat -> R) (p : nat) : R := sumn ny (fun q => wy q * (k p q * z q)).

Lemma remainder L (t : nat -> R) X Y z sigma : orth nx wx L X -> orth ny wy L Y ->
  (forall p q, (p < nx)%nat -> (q < ny)%nat -> k p q = sumn L (fun a => t a * (X a p * Y a q))) ->
  (forall a, (a < L)%nat -> inn ny wy (Y a) z = 0 \/ Rsqr (t a) <= Rsqr sigma) ->
  inn nx wx (app z) (app z) <= Rsqr sigma * inn ny wy z z.
Proof.
  intros HX HY Hk Hz.
  assert (E : forall p, (p < nx)%nat -> app z p = 0 - sumn L (fun a => (- (t a * inn ny wy (Y a) z)) * X a p)).
  { intros p Hp. unfold app. transitivity (sumn ny (fun q => sumn L (fun a => t a * X a p * (wy q * (Y a q * z q))))).
    - apply sumn_ext. intros q Hq. rewrite Hk by auto. rewrite (sumn_ext L (fun a => t a * X a p * (wy q * (Y a q * z q))) (fun a => (wy q * z q) * (t a * (X a p * Y a q)))) by (intros; ring).
      rewrite sumn_scal. ring.
    - rewrite sumn_swap. rewrite (sumn_ext L (fun a => - (t a * inn ny wy (Y a) z) * X a p) (fun a => -1 * (t a * inn ny wy (Y a) z * X a p))) by (intros; ring).
      rewrite sumn_scal. rewrite (sumn_ext L (fun a => t a * inn ny wy (Y a) z * X a p) (fun a => sumn ny (fun q => t a * X a p * (wy q * (Y a q * z q))))); [ring|].
      intros a Ha. rewrite sumn_scal. unfold inn. ring. }
  rewrite (inn_ext nx wx _ _ _ _ E E). rewrite (pythagoras nx wx L X (fun _ => 0) _ HX).
  assert (Z0 : forall h, inn nx wx (fun _ => 0) h = 0) by (intros h; unfold inn; apply sumn_zero; intros; ring).
  rewrite Z0. rewrite (sumn_zero L (fun i => Rsqr (inn nx wx (fun _ => 0) (X i)))) by (intros; rewrite Z0; unfold Rsqr; ring).
  rewrite (sumn_ext L _ (fun a => Rsqr (t a) * Rsqr (inn ny wy z (Y a)))) by (intros; rewrite Z0, (inn_sym ny wy z); unfold Rsqr; ring).
  apply Rle_trans with (Rsqr sigma * sumn L (fun a => Rsqr (inn ny wy z (Y a)))).
  - rewrite <- sumn_scal. replace (0 - 0 + sumn L (fun a => Rsqr (t a) * Rsqr (inn ny wy z (Y a)))) with (sumn L (fun a => Rsqr (t a) * Rsqr (inn ny wy z (Y a)))) by ring.
    apply sumn_le. intros a Ha. destruct (Hz a Ha) as [H0|H0].
    + rewrite inn_sym, H0, Rsqr_0. lra.
    + apply Rmult_le_compat_r; auto. apply Rle_0_sqr.
  - apply Rmult_le_compat_l; [apply Rle_0_sqr|]. apply bessel; auto.
Qed.

(** * Optimality *)
Variables (U V : nat -> nat -> R) (s : nat -> R) (N : nat) (sigma : R).
Hypothesis HU : orth nx wx N U.
Hypothesis HV : orth ny wy N V.
Hypothesis HK : forall l p, (l < N)%nat -> (p < nx)%nat -> app (V l) p = s l * U l p.
Hypothesis HK' : forall l q, (l < N)%nat -> (q < ny)%nat -> sumn nx (fun p => wx p * (k p q * U l p)) = s l * V l q.
Hypothesis H0 : 0 <= sigma.
Hypothesis Hs : forall l, (l < N)%nat -> sigma <= s l.
Hypothesis Hr : forall z, (forall l, (l < N)%nat -> inn ny wy (V l) z = 0) -> inn nx wx (app z) (app z) <= Rsqr sigma * inn ny wy z z.

Lemma app_norm v : inn nx wx (app v) (app v) <=
  sumn N (fun l => Rsqr (s l) * Rsqr (inn ny wy v (V l))) + Rsqr sigma * (inn ny wy v v - sumn N (fun l => Rsqr (inn ny wy v (V l)))).
Proof.
  set (z := fun q => v q - sumn N (fun l => inn ny wy v (V l) * V l q)).
  assert (Oz : forall l, (l < N)%nat -> inn ny wy (V l) z = 0).
  { intros l Hl. rewrite inn_sym. unfold z. rewrite inn_comb. rewrite (sumn_single _ _ l Hl); [rewrite HV, Nat.eqb_refl by auto; ring|].
    intros j Hj Hne. rewrite HV by auto. destruct (Nat.eqb_spec j l); [lia|ring]. }
  assert (Nz : inn ny wy z z = inn ny wy v v - sumn N (fun l => Rsqr (inn ny wy v (V l)))).
  { unfold z. rewrite (pythagoras ny wy N V v _ HV). rewrite (sumn_zero N (fun i => Rsqr (_ - _))) by (intros; unfold Rsqr; ring). ring. }
  assert (Ez : forall p, (p < nx)%nat -> app z p = app v p - sumn N (fun l => (s l * inn ny wy v (V l)) * U l p)).
  { intros p Hp. unfold app at 1, z. transitivity (app v p - sumn N (fun l => inn ny wy v (V l) * app (V l) p)).
    - unfold app. transitivity (sumn ny (fun q => wy q * (k p q * v q)) - sumn ny (fun q => sumn N (fun l => inn ny wy v (V l) * (wy q * (k p q * V l q))))).
      + rewrite <- sumn_minus. apply sumn_ext. intros q _. rewrite (sumn_ext N (fun l => inn ny wy v (V l) * (wy q * (k p q * V l q))) (fun l => (wy q * k p q) * (inn ny wy v (V l) * V l q))) by (intros; ring).
        rewrite sumn_scal. ring.
      + f_equal. rewrite sumn_swap. apply sumn_ext. intros l _. rewrite sumn_scal. reflexivity.
    - f_equal. apply sumn_ext. intros l Hl. rewrite HK by auto. ring. }
  assert (Av : forall l, (l < N)%nat -> inn nx wx (app v) (U l) = s l * inn ny wy v (V l)).
  { intros l Hl. unfold inn at 1, app.
    transitivity (sumn nx (fun p => sumn ny (fun q => wy q * v q * (wx p * (k p q * U l p))))).
    - apply sumn_ext. intros p _. rewrite (sumn_ext ny (fun q => wy q * v q * (wx p * (k p q * U l p))) (fun q => (wx p * U l p) * (wy q * (k p q * v q)))) by (intros; ring). rewrite sumn_scal. ring.
    - rewrite sumn_swap. unfold inn. rewrite <- sumn_scal. apply sumn_ext. intros q Hq. rewrite sumn_scal, HK' by auto. ring. }
  pose proof (Hr z Oz) as B. rewrite Nz in B. rewrite (inn_ext nx wx _ _ _ _ Ez Ez) in B. rewrite (pythagoras nx wx N U (app v) _ HU) in B.
  rewrite (sumn_zero N (fun i => Rsqr (s i * inn ny wy v (V i) - inn nx wx (app v) (U i)))) in B by (intros i Hi; rewrite Av by auto; unfold Rsqr; ring).
  rewrite (sumn_ext N (fun i => Rsqr (inn nx wx (app v) (U i))) (fun l => Rsqr (s l) * Rsqr (inn ny wy v (V l)))) in B by (intros i Hi; rewrite Av by auto; unfold Rsqr; ring).
  lra.
Qed.

Lemma optimal (a b : nat -> nat -> R) :
  sumn nx (fun p => sumn ny (fun q => wx p * wy q * Rsqr (k p q))) - sumn N (fun l => s l * s l) <=
  sumn nx (fun p => sumn ny (fun q => wx p * wy q * Rsqr (k p q - sumn N (fun l => a l p * b l q)))).
Proof.
  destruct (gram_schmidt ny wy Hy N b) as (d & e & Hd & He & Hb).
  assert (Hb' : exists C, forall j q, (j < N)%nat -> (q < ny)%nat -> b j q = sumn d (fun i => C j i * e i q)).
  { clear - Hb. revert Hb. generalize N. intros M. induction M as [|M IH]; intros Hb.
    - exists (fun _ _ => 0). intros; lia.
    - destruct IH as [C HC]; [intros j Hj; apply Hb; lia|]. destruct (Hb M ltac:(lia)) as [c Hc].
      exists (fun j => if Nat.eqb j M then c else C j). intros j q Hj Hq. destruct (Nat.eqb_spec j M) as [->|]; [auto|]. apply HC; auto. lia. }
  destruct Hb' as [C HC].
  (* rows *)
  assert (Row : forall p, (p < nx)%nat -> inn ny wy (k p) (k p) - sumn d (fun i => Rsqr (app (e i) p)) <=
     sumn ny (fun q => wy q * Rsqr (k p q - sumn N (fun l => a l p * b l q)))).
  { intros p Hp.
    rewrite (sumn_ext ny _ (fun q => wy q * ((k p q - sumn d (fun i => sumn N (fun l => a l p * C l i) * e i q)) * (k p q - sumn d (fun i => sumn N (fun l => a l p * C l i) * e i q))))).
    - fold (inn ny wy (fun q => k p q - sumn d (fun i => sumn N (fun l => a l p * C l i) * e i q)) (fun q => k p q - sumn d (fun i => sumn N (fun l => a l p * C l i) * e i q))).
      rewrite (pythagoras ny wy d e (k p) (fun i => sumn N (fun l => a l p * C l i)) He).
      rewrite (sumn_ext d (fun i => Rsqr (app (e i) p)) (fun i => Rsqr (inn ny wy (k p) (e i)))) by reflexivity.
      assert (0 <= sumn d (fun i => Rsqr (sumn N (fun l => a l p * C l i) - inn ny wy (k p) (e i)))) by (apply sumn_nonneg; intros; apply Rle_0_sqr). lra.
    - intros q Hq. f_equal. unfold Rsqr. assert (E : sumn N (fun l => a l p * b l q) = sumn d (fun i => sumn N (fun l => a l p * C l i) * e i q)); [|rewrite E; reflexivity].
      transitivity (sumn N (fun l => sumn d (fun i => a l p * C l i * e i q))).
      + apply sumn_ext. intros l Hl. rewrite HC by auto. rewrite <- sumn_scal. apply sumn_ext. intros; ring.
      + rewrite sumn_swap. apply sumn_ext. intros i _. rewrite <- sumn_scal_r. reflexivity. }
  apply Rle_trans with (sumn nx (fun p => wx p * (inn ny wy (k p) (k p) - sumn d (fun i => Rsqr (app (e i) p))))).
  2:{ apply sumn_le. intros p Hp. rewrite (sumn_ext ny _ (fun q => wx p * (wy q * Rsqr (k p q - sumn N (fun l => a l p * b l q))))) by (intros; ring).
      rewrite sumn_scal. apply Rmult_le_compat_l; [left; auto|]. apply Row; auto. }
  assert (E : sumn nx (fun p => wx p * (inn ny wy (k p) (k p) - sumn d (fun i => Rsqr (app (e i) p)))) =
     sumn nx (fun p => sumn ny (fun q => wx p * wy q * Rsqr (k p q))) - sumn d (fun i => inn nx wx (app (e i)) (app (e i)))).
  { transitivity (sumn nx (fun p => sumn ny (fun q => wx p * wy q * Rsqr (k p q))) - sumn nx (fun p => sumn d (fun i => wx p * Rsqr (app (e i) p)))).
    - rewrite <- sumn_minus. apply sumn_ext. intros p _. rewrite sumn_scal. rewrite (sumn_ext ny _ (fun q => wx p * (wy q * (k p q * k p q)))) by (intros; unfold Rsqr; ring).
      rewrite sumn_scal. unfold inn. ring.
    - f_equal. rewrite sumn_swap. apply sumn_ext. intros i _. unfold inn, Rsqr. reflexivity. }
  rewrite E. clear E Row.
  assert (B : sumn d (fun i => inn nx wx (app (e i)) (app (e i))) <= sumn N (fun l => s l * s l)); [|lra].
  apply Rle_trans with (sumn d (fun i => sumn N (fun l => Rsqr (s l) * Rsqr (inn ny wy (e i) (V l))) + Rsqr sigma * (1 - sumn N (fun l => Rsqr (inn ny wy (e i) (V l)))))).
  { apply sumn_le. intros i Hi. pose proof (app_norm (e i)) as Hn. rewrite (He i i Hi Hi), Nat.eqb_refl in Hn. exact Hn. }
  set (T := fun l => sumn d (fun i => Rsqr (inn ny wy (e i) (V l)))).
  assert (HT : forall l, (l < N)%nat -> 0 <= T l <= 1).
  { intros l Hl. split; [apply sumn_nonneg; intros; apply Rle_0_sqr|]. pose proof (bessel ny wy Hy d e (V l) He) as Hbe.
    rewrite HV, Nat.eqb_refl in Hbe by auto. unfold T. rewrite (sumn_ext d _ (fun i => Rsqr (inn ny wy (V l) (e i)))) by (intros; rewrite inn_sym; reflexivity). exact Hbe. }
  rewrite sumn_plus, sumn_scal, sumn_minus, sumn_const, sumn_swap, (sumn_swap d N).
  rewrite (sumn_ext N (fun i => sumn d (fun j => Rsqr (s i) * Rsqr (inn ny wy (e j) (V i)))) (fun l => Rsqr (s l) * T l)) by (intros; rewrite sumn_scal; reflexivity).
  change (sumn N (fun i => sumn d (fun j => Rsqr (inn ny wy (e j) (V i))))) with (sumn N T).
  assert (Hd' : INR d * 1 <= sumn N (fun _ => 1)) by (rewrite sumn_const; apply le_INR in Hd; lra).
  apply Rle_trans with (sumn N (fun l => Rsqr (s l) * T l) + Rsqr sigma * (sumn N (fun _ => 1) - sumn N T)).
  { apply Rplus_le_compat_l. apply Rmult_le_compat_l; [apply Rle_0_sqr|]. lra. }
  rewrite <- sumn_minus, <- sumn_scal, <- sumn_plus. apply sumn_le. intros l Hl. specialize (HT l Hl). specialize (Hs l Hl).
  assert (Rsqr sigma <= Rsqr (s l)) by (apply Rsqr_incr_1; lra). unfold Rsqr in *. nra.
Qed.
End Remainder.
