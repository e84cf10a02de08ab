(** Exact decompositions of given matrices, and the arguments of the constructor
    under which every decomposition it asks for is exact. *)
From Coq Require Import String ZArith Arith Bool Reals Lra Lia.
From Coquelicot Require Import Coquelicot.
From Coq Require Import List Sorting.Sorted.
From Verif.Model Require Import Base Util Num Gauss Poly FT SVE Basis Kernel Compute Whole.
From Verif.Spec Require Import SGauss SPoly SFT SSVE SBasis SKernel SCompute SSingular SWhole.
From Verif.Proofs Require Import BaseFacts SumFacts GaussFacts KernelProps ComputeNodes ComputeNonempty ComputeCase ComputeWhole LegRoots SvdExists WholeBasis.
Import ListNotations.
Open Scope R_scope.
Notation length := List.length.

Lemma nth_map_seq {T} (f : nat -> T) k i d : (i < k)%nat -> nth i (map f (seq 0 k)) d = f i.
Proof. intros H. rewrite (nth_map_in f (seq 0 k) i 0%nat d) by (rewrite seq_length; auto). rewrite seq_nth by auto. reflexivity. Qed.

Lemma dot_seq n f g : dot (map f (seq 0 n)) (map g (seq 0 n)) = ip n f g.
Proof.
  rewrite (dot_sumn _ _ n) by (rewrite map_length, seq_length; reflexivity). apply sumn_ext. intros i Hi. rewrite !nth_map_seq by auto. reflexivity.
Qed.

Lemma sorted_seq (s : nat -> R) k : forall a, (forall l, (a <= l)%nat -> (S l < a + k)%nat -> s (S l) <= s l) -> nonincreasing (map s (seq a k)).
Proof.
  unfold nonincreasing. induction k as [|k IH]; intros a H; cbn [seq map]; [constructor|]. constructor; [apply IH; intros; apply H; lia|].
  apply Forall_map, Forall_forall. intros l Hl. apply in_seq in Hl.
  assert (G : forall d, (S (a + d) < S (a + S k))%nat -> s (a + d)%nat <= s a).
  { induction d as [|d IHd]; intros Hd; [rewrite Nat.add_0_r; lra|]. eapply Rle_trans; [|apply IHd; lia]. rewrite Nat.add_succ_r. apply H; lia. }
  replace l with (a + (l - a))%nat by lia. apply G. lia.
Qed.

Lemma list_svd m n A : exists b, exact_svd m n A b /\ ordered b /\ ((0 < m)%nat -> (0 < n)%nat -> usv_shaped b).
Proof.
  destruct (svd_exists m n (ment A)) as (u & s & v & H1 & H2 & H3 & H4 & H5). set (k := Nat.min m n) in *.
  exists (map (fun l => map (u l) (seq 0 m)) (seq 0 k), map s (seq 0 k), map (fun l => map (v l) (seq 0 n)) (seq 0 k)).
  assert (L : forall T (f : nat -> T), length (map f (seq 0 k)) = k) by (intros; rewrite map_length, seq_length; reflexivity).
  assert (Hn : nonincreasing (map s (seq 0 k))) by (apply sorted_seq; intros; apply H4; lia).
  assert (Hp : Forall (fun x => 0 <= x) (map s (seq 0 k))).
  { apply Forall_map, Forall_forall. intros l Hl. apply in_seq in Hl. apply H3. lia. }
  split; [|split; [split; assumption|]].
  - unfold exact_svd. rewrite !L. split; [reflexivity|]. split; [reflexivity|].
    split; [apply Forall_map, Forall_forall; intros; rewrite map_length, seq_length; reflexivity|].
    split; [apply Forall_map, Forall_forall; intros; rewrite map_length, seq_length; reflexivity|].
    split; [|split].
    + intros a b Ha Hb. rewrite L in Ha, Hb. rewrite !nth_map_seq by auto. rewrite dot_seq. apply H1; auto.
    + intros a b Ha Hb. rewrite L in Ha, Hb. rewrite !nth_map_seq by auto. rewrite dot_seq. apply H2; auto.
    + intros i j Hi Hj. rewrite H5 by auto. apply sumn_ext. intros l Hl. rewrite !nth_map_seq by auto. reflexivity.
  - intros Pm Pn. unfold usv_shaped. rewrite !L. split; [reflexivity|]. split; [reflexivity|]. split; [|split; assumption].
    intros E. assert (E0 : length (map s (seq 0 k)) = 0%nat) by (rewrite E; reflexivity). rewrite L in E0. unfold k in E0. lia.
Qed.

(** Finitely many matrices. *)
Definition same_matrix (A B : matrix) : {A = B} + {A <> B} := list_eq_dec (list_eq_dec Req_EM_T) A B.

Lemma rectangular_unique m n m' n' A : rectangular m n A -> rectangular m' n' A -> (0 < m)%nat -> m = m' /\ n = n'.
Proof.
  intros [H1 H2] [H3 H4] Hm. split; [congruence|]. destruct A as [|row A]; [cbn in H1; lia|]. inversion H2; inversion H4; subst. reflexivity.
Qed.

Lemma run_for (Ms : list (nat * nat * matrix)) : Forall (fun M => rectangular (fst (fst M)) (snd (fst M)) (snd M)) Ms ->
  exists run, svd_shaped run /\ forall m n A alg h, In (m, n, A) Ms -> exact_svd m n A (run alg A h) /\ ordered (run alg A h).
Proof.
  induction 1 as [|[[m n] A] Ms HA HMs (run & Hs & Hr)].
  - exists (fun _ _ _ => ([[]], [0], [[]])). split; [|intros ? ? ? ? ? []]. intros alg A h m n _ _ _ _. cbn.
    repeat (split; [reflexivity|]). split; [discriminate|]. split; [constructor; constructor|]. constructor; [lra|constructor].
  - cbn in HA. destruct (list_svd m n A) as (b & E & O & S). exists (fun alg B h => if same_matrix A B then b else run alg B h). split.
    + intros alg B h m' n' HB Hm Hn Hh. destruct (same_matrix A B) as [<-|]; [|eapply Hs; eauto].
      destruct (rectangular_unique m' n' m n A HB HA Hm) as [<- <-]. apply S; auto.
    + intros m' n' B alg h Hin. destruct (same_matrix A B) as [<-|Hne].
      * split; [|exact O]. assert (HB : rectangular m' n' A).
        { destruct Hin as [[= <- <-]|Hin]; [exact HA|]. rewrite Forall_forall in HMs. exact (HMs _ Hin). }
        destruct (Nat.eq_dec m 0) as [->|Hm0].
        { assert (m' = 0%nat) as -> by (destruct HA, HB; congruence). revert E. destruct b as [[us s] vs]. unfold exact_svd.
          intros (E1 & E2 & E3 & E4 & E5 & E6 & _).
          destruct us as [|u us]; [|exfalso; specialize (E5 0%nat 0%nat ltac:(cbn; lia) ltac:(cbn; lia)); inversion E3 as [|? ? Eu _]; subst; destruct u; [cbn in E5; lra|discriminate]].
          destruct s; [|discriminate]. destruct vs; [|discriminate]. repeat (split; [reflexivity || constructor|]). split; [intros ? ? Hl; cbn in Hl; lia|]. split; [intros ? ? Hl; cbn in Hl; lia|].
          intros; lia. }
        destruct (rectangular_unique m n m' n' A HA HB) as [<- <-]; [lia|]. exact E.
      * destruct Hin as [[= _ _ ->]|Hin]; [contradiction|]. apply Hr. exact Hin.
Qed.

Lemma weighted_rectangular k gx gy : length (rx gx) = length (rw gx) -> length (rx gy) = length (rw gy) ->
  rectangular (length (rx gx)) (length (rx gy)) (weighted k gx gy).
Proof.
  intros Hx Hy. unfold weighted. split; [rewrite map2_length; lia|]. revert Hx. generalize (rx gx) (rw gx).
  induction l as [|x l IH]; intros [|w l'] Hl; try discriminate; cbn; [constructor|]. constructor; [rewrite map2_length; lia|]. apply IH. cbn in Hl. lia.
Qed.

Lemma piecewise_lengths q segs g : length (rx q) = length (rw q) -> piecewise q segs = Ok g -> length (rx g) = length (rw g).
Proof.
  intros Hq H. apply piecewise_ok_inv in H as [Hc Hj]. eapply join_length; [|exact Hj]. apply pieces_forall; auto.
  intros s t _. unfold reseat. cbn. rewrite !map_length. exact Hq.
Qed.

Definition cases (k : R -> R -> R) (K : kernel) (q : rule) : list (nat * nat * matrix) :=
  match piecewise q (half (segments_x K)), piecewise q (half (segments_y K)) with
  | Ok gx, Ok gy => [(length (rx gx), length (rx gy), weighted (fun x y => k x y + k x (- y)) gx gy);
                     (length (rx gx), length (rx gy), weighted (fun x y => k x y - k x (- y)) gx gy)]
  | _, _ => []
  end ++
  match piecewise q (segments_x K), piecewise q (segments_y K) with
  | Ok gx, Ok gy => [(length (rx gx), length (rx gy), weighted k gx gy)]
  | _, _ => []
  end.

Lemma cases_rectangular k K q : length (rx q) = length (rw q) -> Forall (fun M => rectangular (fst (fst M)) (snd (fst M)) (snd M)) (cases k K q).
Proof.
  intros Hq. unfold cases. apply Forall_app. split.
  - destruct (piecewise q (half (segments_x K))) as [gx|] eqn:Ex; [|constructor]. destruct (piecewise q (half (segments_y K))) as [gy|] eqn:Ey; [|constructor].
    apply (piecewise_lengths q) in Ex, Ey; auto. constructor; [|constructor; [|constructor]]; apply weighted_rectangular; auto.
  - destruct (piecewise q (segments_x K)) as [gx|] eqn:Ex; [|constructor]. destruct (piecewise q (segments_y K)) as [gy|] eqn:Ey; [|constructor].
    apply (piecewise_lengths q) in Ex, Ey; auto. constructor; [|constructor]; apply weighted_rectangular; auto.
Qed.

Lemma realizable n1 n2 K k : (0 < n1)%nat -> (0 < n2)%nat -> exists legendre run,
  good_rules legendre /\ svd_shaped run /\ (forall t n, n = n1 \/ n = n2 -> exists q, legendre t n = Ok q) /\
  decomposes_exactly legendre run K k.
Proof.
  intros P1 P2. destruct (gauss_exists n1 P1) as (q1 & G1 & D1 & _). destruct (gauss_exists n2 P2) as (q2 & G2 & D2 & _).
  assert (L1 : length (rx q1) = length (rw q1)) by (destruct G1 as (_ & ? & ? & _); congruence).
  assert (L2 : length (rx q2) = length (rw q2)) by (destruct G2 as (_ & ? & ? & _); congruence).
  destruct (run_for (cases k K q1 ++ cases k K q2)) as (run & Hs & Hr).
  { apply Forall_app. split; apply cases_rectangular; auto. }
  pose (legendre := fun (_ : dtype) n => if (n =? n1)%nat then Ok q1 else if (n =? n2)%nat then Ok q2 else Raise ValueError).
  assert (Hl : forall t n q, legendre t n = Ok q -> n = n1 /\ q = q1 \/ n = n2 /\ q = q2).
  { intros t n q. unfold legendre. destruct (Nat.eqb_spec n n1) as [->|]; [intros [= <-]; auto|]. destruct (Nat.eqb_spec n n2) as [->|]; [intros [= <-]; auto|discriminate]. }
  exists legendre, run. split; [|split; [exact Hs|split]].
  - intros t n q H. destruct (Hl t n q H) as [[-> ->]|[-> ->]]; auto.
  - intros t n H. unfold legendre. destruct (Nat.eqb_spec n n1); [eauto|]. destruct (Nat.eqb_spec n n2); [eauto|]. lia.
  - assert (Hin : forall m n A q, (q = q1 \/ q = q2) -> In (m, n, A) (cases k K q) -> In (m, n, A) (cases k K q1 ++ cases k K q2)).
    { intros m n A q [->| ->] H; apply in_or_app; auto. }
    intros t n q alg h Hq. assert (Eq : q = q1 \/ q = q2) by (destruct (Hl t n q Hq) as [[_ E]|[_ E]]; auto). split.
    + intros gx gy Hx Hy. cbv zeta. split; apply Hr, (Hin _ _ _ q Eq); unfold cases; rewrite Hx, Hy; apply in_or_app; left; [left|right; left]; reflexivity.
    + intros gx gy Hx Hy. cbv zeta. apply Hr, (Hin _ _ _ q Eq). unfold cases. rewrite Hx, Hy. apply in_or_app. right. left. reflexivity.
Qed.

(** The constructor returns for all valid arguments, with the rules, the
    decompositions and the sorting the code asks for. *)
Lemma constructor_case f K k : tfun_ok f -> (forall x y, -1 <= x <= 1 -> -1 <= y <= 1 -> has_value f K x y (k x y)) ->
  exists legendre run argsort,
  (good_rules legendre /\ (forall s, sorts s (argsort s)) /\ svd_shaped run /\
   (forall t n, (n = 10 \/ n = 16)%nat -> exists q, legendre t n = Ok q) /\ decomposes_exactly legendre run K k) /\
  forall have_xprec have_gejsv dd statistics beta wmax eps max_size, 0 <= dd < / 2 ->
  0 < beta -> 0 < wmax -> statistics = "F"%string \/ statistics = "B"%string -> Rabs (k_lambda K - beta * wmax) <= 4 / 10 ^ 16 * (beta * wmax) ->
  (forall e, eps = Some e -> e <= 1) -> max_size = None \/ (exists z, max_size = Some (PyInt z) /\ (0 < z)%Z) ->
  exists o, new_basis have_xprec have_gejsv dd f legendre run argsort statistics beta wmax eps max_size (Some K) = Ok o.
Proof.
  intros Hf Hk. destruct (realizable 10 16 K k ltac:(lia) ltac:(lia)) as (legendre & run & H1 & H2 & H3 & H4).
  exists legendre, run, sort_indices. split.
  - split; [exact H1|]. split; [exact sort_indices_ok|]. split; [exact H2|]. split; [exact H3|exact H4].
  - intros have_xprec have_gejsv dd stat beta wmax eps ms Hd Hb Hw Hst HK He Hms.
    apply (new_returns have_xprec have_gejsv dd f legendre run sort_indices H1 sort_indices_ok H2 Hf stat beta wmax eps ms (Some K) k); auto.
    + intros K' [= <-]. exact HK.
    + intros t n q gx gy alg h Hq Hx Hy. destruct (H4 t n q alg h Hq) as [H5 _]. destruct (H5 gx gy Hx Hy) as [[H6 _] _]. exact H6.
Qed.

