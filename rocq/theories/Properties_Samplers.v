(** Final theorems for the samplers of domains.py, as functions of the random
    numbers they draw: C99 *)
From Coq Require Import String Reals Lra Lia List Arith ZArith Bool Sorted.
From Verif Require Import Prelude Py NumArr LinAlg Toy M_Misc M_RespSurf M_Gradients M_Subspaces M_QP M_Domains P_QP P_Misc P_Domains P_DomSample P_DomWitness Properties_QP Properties_Domains Properties_DomSample M_Plotters P_Plotters M_Tutorials P_Tutorials M_Notebooks P_Notebooks.
Import ListNotations.
Open Scope R_scope.

(** [lo, hi] is the smallest box that holds the set P of points with k coordinates *)
Definition tight_box (P : (nat -> R) -> Prop) (k : nat) (lo hi : nat -> R) : Prop :=
  forall j, (j < k)%nat -> (forall z, P z -> lo j <= z j <= hi j) /\ (exists z, P z /\ z j = lo j) /\ (exists z, P z /\ z j = hi j).

Lemma inpoly_ext : forall W2 m k s z z', (forall j, (j < k)%nat -> z j = z' j) -> inpoly W2 m k s z -> inpoly W2 m k s z'.
Proof.
  intros W2 m k s z z' E H i Hi. specialize (H i Hi). rewrite (sumf_ext k _ (fun j => W2.[i, j] * z j)); auto. intros j Hj. now rewrite E.
Qed.
Lemma inpoly_shift : forall W2 m k s s' z, (forall i, (i < m)%nat -> s i = s' i) -> inpoly W2 m k s z -> inpoly W2 m k s' z.
Proof. intros W2 m k s s' z E H i Hi. specialize (H i Hi). now rewrite <- E. Qed.

(** listing the true positions of a test, in order *)
Lemma filter_seq_sorted : forall (F : nat -> bool) n a, StronglySorted lt (filter F (seq a n)).
Proof.
  intros F. induction n as [|n IH]; intros a; cbn [seq filter]; [constructor|].
  destruct (F a); [|apply IH]. constructor; [apply IH|]. apply Forall_forall. intros x Hx. apply filter_In in Hx. destruct Hx as [Hx _]. apply in_seq in Hx. lia.
Qed.
Lemma nth_firstn_lt : forall (l : list nat) n q d, (q < n)%nat -> nth q (firstn n l) d = nth q l d.
Proof.
  induction l as [|x l IH]; intros n q d H; [destruct n; destruct q; reflexivity|]. destruct n as [|n]; [lia|]. destruct q as [|q]; [reflexivity|]. cbn [firstn nth]. apply IH. lia.
Qed.

Lemma unit_obj : forall k i v x, (i < k)%nat -> lin_obj (unit_col k i v) k x = v * x i.
Proof.
  intros k i v x Hi. unfold lin_obj. rewrite (sumf_ext k _ (fun j => (v * x j) * kron_delta j i)).
  - rewrite sumf_kd_r by auto. reflexivity.
  - intros j Hj. unfold unit_col. rewrite at_mk2. unfold kron_delta. destruct (Nat.eqb j i); ring.
Qed.

(** mapping the draws into the box *)
Lemma unnormalize_box : forall (lo hi : nat -> R) r k (Zu : nd R), shape Zu = [r; k] ->
  exists bn Zx, bounded_init (mk2 1 k (fun _ j => Fin (lo j))) (mk2 1 k (fun _ j => Fin (hi j))) = Ok bn /\
    bounded_unnormalize bn (amap Fin Zu) = Ok Zx /\ shape Zx = [r; k] /\
    forall i j, (i < r)%nat -> (j < k)%nat -> Zx.[i, j] = Fin ((hi j - lo j) * (Zu.[i, j] + 1) / 2 + lo j).
Proof.
  intros lo hi r k Zu HZ. set (lb := mk2 1 k (fun _ j => Fin (lo j))). set (ub := mk2 1 k (fun _ j => Fin (hi j))).
  unfold bounded_init. assert (SZ : size lb = k) by (unfold size; cbn [shape lb mk2 prodn]; lia). rewrite SZ.
  change [1%nat; k] with (shape lb) at 1. rewrite reshape_id. cbn [rbind]. change [1%nat; k] with (shape ub) at 1. rewrite reshape_id. cbn [rbind].
  exists {| bn_lb := lb; bn_ub := ub |}. unfold bounded_unnormalize. cbn [bn_lb bn_ub].
  rewrite (process_inputs_ok _ (amap Fin Zu) r k HZ). cbn [rbind].
  destruct (bcast2_same _ _ _ xsub ub lb 1 k eq_refl eq_refl) as (wd & E1 & S1 & V1). rewrite E1. cbn [rbind].
  set (X1 := amap (fun a => xadd a (Fin 1)) (amap Fin Zu)). assert (SX : shape X1 = [r; k]) by exact HZ.
  destruct (bcast2_row _ _ _ (fun a b => xmul b a) X1 wd r k SX S1) as (p & E2 & S2 & V2).
  assert (E2' : bcast2 xmul wd X1 = Ok p).
  { rewrite <- E2. unfold bcast2. rewrite S1, SX. assert (BD : forall a b, bdim a b = bdim b a).
    { intros a b. unfold bdim. destruct (Nat.eqb_spec a b); destruct (Nat.eqb_spec b a); try congruence. destruct (Nat.eqb_spec a 1); destruct (Nat.eqb_spec b 1); congruence. }
    rewrite (BD 1%nat r). destruct (bdim r 1); [|reflexivity]. destruct (bdim k k); reflexivity. }
  rewrite E2'. cbn [rbind].
  destruct (bcast2_row _ _ _ xadd (amap (fun a => xdiv a (Fin 2)) p) lb r k S2 eq_refl) as (q & E3 & S3 & V3). rewrite E3.
  exists q. split; [reflexivity|]. split; [reflexivity|]. split; [exact S3|]. intros i j Hi Hj. rewrite V3 by auto.
  change ((amap (fun a => xdiv a (Fin 2)) p).[i, j]) with (xdiv (p.[i, j]) (Fin 2)). rewrite V2 by auto. rewrite V1 by lia.
  unfold lb, ub. rewrite !at_mk2. change (X1.[i, j]) with (xadd (Fin (Zu.[i, j])) (Fin 1)). cbn [xsub xneg xadd xmul]. rewrite xdiv_fin by lra. cbn [xadd]. f_equal. 
Qed.

Section Rejection.
  Context {G : gen} {U L : Type}.
  Notation W := (world G U L).
  Variable B : backend.

  (** Rejection sampling draws 50 N points, the r-th with coordinates
      lo_j + (hi_j - lo_j) u with u the uniform numbers number r k + j of the
      stream and [lo, hi] the smallest box that holds the polytope; it returns
      the first N of them that lie in the polytope, in the order drawn, or
      nothing when fewer than N do.  No draw is used twice, and the generator
      is left 50 N k draws further. *)
  Theorem C99_rejection : forall m n N y W1 W2 (w w' : W) o,
    shape W1 = [m; n] -> shape W2 = [m; (m - n)%nat] -> shape y = [n] -> linprog_ok (linprog B) -> gurobi_ok (gurobi B) ->
    rejection_sampling_z B N y W1 W2 w = (Ok o, w') ->
    let k := (m - n)%nat in let inside := inpoly W2 m k (shift W1 y n) in
    exists Nn lo hi idx, N = Z.of_nat Nn /\ (n <= m)%nat /\ tight_box inside k lo hi /\ w' = set_rng w (unif_state (50 * Nn * k) (rng w)) /\
      let cand r j := lo j + (hi j - lo j) * unif_at (rng w) (r * k + j) in
      StronglySorted lt idx /\ (forall r, In r idx <-> (r < 50 * Nn)%nat /\ inside (cand r)) /\
      match o with
      | None => (List.length idx < Nn)%nat
      | Some Z => (Nn <= List.length idx)%nat /\ shape Z = [Nn; k] /\ forall i j, (i < Nn)%nat -> (j < k)%nat -> Z.[i, j] = cand (nth i idx 0%nat) j
      end.
  Proof.
    intros m n N y W1 W2 w w' o H1 H2 Hy HL HG H k inside. fold k in H2. unfold rejection_sampling_z in H.
    apply mbind_ok in H. destruct H as ([m' n'] & w1 & E & H). apply mlift_inv in E. destruct E as [E ->]. unfold shape2 in E. rewrite H1 in E. injection E as <- <-. fold k in H.
    apply mbind_ok in H. destruct H as (s & w1 & E & H). apply mlift_inv in E. destruct E as [E ->].
    destruct (shift_of_ok W1 y m n H1 Hy) as (s' & Es & Ss & Vs). rewrite Es in E. apply Ok_eq in E. subst s'.
    apply mbind_ok in H. destruct H as ([A b] & w1 & E & H). apply mlift_inv in E. destruct E as [E ->].
    destruct (polytope_pair W2 s m k H2 Ss) as (A' & b' & Ep & SA & Sb & Vp). rewrite Ep in E. injection E as -> ->.
    apply mbind_ok in H. destruct H as (u1 & w1 & E & H). apply mlift_inv in E. destruct E as [E ->].
    assert (Hn : (n <= m)%nat). { destruct (Nat.leb_spec n m); [auto|discriminate]. } clear E u1.
    assert (FE : forall z, doc_ineq A b (2 * m) k z <-> inside z).
    { intros z. unfold inside. rewrite <- slack_poly. split; intros K r Hr; specialize (K r Hr).
      - assert (Q := Vp z r Hr). replace (slack W2 m k (shift W1 y n) z r) with (slack W2 m k (fun i => s.[i, 0%nat]) z r); [lra|].
        unfold slack. destruct (Nat.ltb_spec r m); rewrite Vs by lia; reflexivity.
      - assert (Q := Vp z r Hr). replace (slack W2 m k (shift W1 y n) z r) with (slack W2 m k (fun i => s.[i, 0%nat]) z r) in K; [lra|].
        unfold slack. destruct (Nat.ltb_spec r m); rewrite Vs by lia; reflexivity. }
    apply mbind_ok in H. destruct H as (box & w1 & EB & H).
    set (lo := fun j => fst (nth j box (0, 0))) in *. set (hi := fun j => snd (nth j box (0, 0))) in *.
    assert (BX : w1 = w /\ List.length box = k /\ tight_box inside k lo hi).
    { assert (KEY : forall l (wa wb : W) bx, (forall i, In i l -> (i < k)%nat) ->
        mmap (fun i => dom zl <- linear_program_ineq B (qp_init B "GUROBI") (unit_col k i 1) A b; dom l <- mlift (get2 zl i 0);
          dom zu <- linear_program_ineq B (qp_init B "GUROBI") (unit_col k i (-1)) A b; dom u <- mlift (get2 zu i 0); mret (l, u)) l wa = (Ok bx, wb) ->
        wb = wa /\ List.length bx = List.length l /\ forall q, (q < List.length l)%nat -> let i := nth q l 0%nat in
          (forall z, inside z -> fst (nth q bx (0, 0)) <= z i <= snd (nth q bx (0, 0))) /\ (exists z, inside z /\ z i = fst (nth q bx (0, 0))) /\ (exists z, inside z /\ z i = snd (nth q bx (0, 0)))).
      { induction l as [|i l IH]; intros wa wb bx Hl E; cbn [mmap] in E.
        - apply mret_inv in E. destruct E as [-> ->]. split; auto. split; auto. simpl. intros; lia.
        - apply mbind_ok in E. destruct E as ([li ui] & w2 & E1 & E). apply mbind_ok in E. destruct E as (bx' & w3 & E2 & E). apply mret_inv in E. destruct E as [-> ->].
          assert (Hi : (i < k)%nat) by (apply Hl; now left).
          apply mbind_ok in E1. destruct E1 as (zl & w4 & EL & E1). 
          destruct (proj2 (C51_linear_programs_solved (G := G) (U := U) (L := L) B "GUROBI" (2 * m) k (unit_col k i 1) A b (zeros2 k 1) (zeros2 k 1) wa w4 zl HL HG eq_refl SA Sb eq_refl eq_refl) EL) as [(S1 & F1 & O1) ->].
          apply mbind_ok in E1. destruct E1 as (l1 & w4 & EG & E1). apply mlift_inv in EG. destruct EG as [EG ->].
          apply mbind_ok in E1. destruct E1 as (zu & w4 & EU & E1).
          destruct (proj2 (C51_linear_programs_solved (G := G) (U := U) (L := L) B "GUROBI" (2 * m) k (unit_col k i (-1)) A b (zeros2 k 1) (zeros2 k 1) wa w4 zu HL HG eq_refl SA Sb eq_refl eq_refl) EU) as [(S2 & F2 & O2) ->].
          apply mbind_ok in E1. destruct E1 as (u1 & w4 & EG2 & E1). apply mlift_inv in EG2. destruct EG2 as [EG2 ->]. apply mret_inv in E1. destruct E1 as [E1 ->]. injection E1 as -> ->.
          assert (GV : forall z v, shape z = [k; 1%nat] -> get2 z i 0 = Ok v -> v = z.[i, 0%nat]).
          { intros z v Sz Eg. unfold get2 in Eg. rewrite Sz in Eg. destruct (_ && _)%bool; [|discriminate]. apply Ok_eq in Eg. auto. }
          apply (GV zl l1 S1) in EG. apply (GV zu u1 S2) in EG2. subst l1 u1.
          destruct (IH _ _ _ ltac:(intros; apply Hl; now right) E2) as (-> & LB & K). split; auto. split; [simpl; lia|].
          intros [|q] Hq; cbn [nth fst snd]; [|apply K; simpl in Hq; lia]. split; [|split].
          + intros z Hz. apply FE in Hz. specialize (O1 z Hz). specialize (O2 z Hz). rewrite !unit_obj in O1, O2 by auto. lra.
          + exists (fun j => zl.[j, 0%nat]). split; auto. now apply FE.
          + exists (fun j => zu.[j, 0%nat]). split; auto. now apply FE. }
      destruct (KEY (seq 0 k) w w1 box ltac:(intros i Hi; apply in_seq in Hi; lia) EB) as (-> & LB & K). rewrite seq_length in LB, K.
      split; auto. split; auto. intros j Hj. specialize (K j Hj). cbv zeta in K. rewrite seq_nth in K by auto. exact K. }
    destruct BX as (-> & LB & TB). clear EB.
    apply mbind_ok in H. destruct H as (bn & w3 & EN & H). apply mlift_inv in EN. destruct EN as [EN ->].
    apply mbind_ok in H. destruct H as (r & w4 & ER & H). apply mlift_inv in ER. destruct ER as [ER ->].
    assert (HN : (0 <= N)%Z /\ r = (50 * Z.to_nat N)%nat). { unfold dimZ in ER. destruct (Z.ltb_spec (50 * N) 0); [discriminate|]. apply Ok_eq in ER. lia. }
    destruct HN as [HN ->]. set (Nn := Z.to_nat N) in *. clear ER.
    apply mbind_ok in H. destruct H as (Zu & w4 & EU & H). destruct (uniform2_ev G (U := U) (L := L) (-1) 1 (50 * Nn) k w) as (Zu' & EU' & SU & VU). rewrite EU' in EU. injection EU as <- <-.
    destruct (unnormalize_box lo hi (50 * Nn) k Zu' SU) as (bn' & Zx' & Ebn & Ezx & SZx & VZx).
    change (fun (_ : nat) j => Fin (lo j)) with (fun (_ : nat) j => Fin (fst (nth j box (0, 0)))) in Ebn. change (fun (_ : nat) j => Fin (hi j)) with (fun (_ : nat) j => Fin (snd (nth j box (0, 0)))) in Ebn.
    rewrite Ebn in EN. apply Ok_eq in EN. subst bn'.
    apply mbind_ok in H. destruct H as (Zx & w5 & EX & H). apply mlift_inv in EX. destruct EX as [EX ->]. rewrite Ezx in EX. apply Ok_eq in EX. subst Zx'.
    set (Zb := amap fin Zx) in *. assert (SB : shape Zb = [(50 * Nn)%nat; k]) by exact SZx.
    set (cand := fun r j => lo j + (hi j - lo j) * unif_at (rng w) (r * k + j)).
    assert (VB : forall r j, (r < 50 * Nn)%nat -> (j < k)%nat -> Zb.[r, j] = cand r j).
    { intros r j Hr Hj. change (Zb.[r, j]) with (fin (Zx.[r, j])). rewrite VZx by auto. cbn [fin]. rewrite VU by auto. unfold cand. field. }
    apply mbind_ok in H. destruct H as (AZ & w6 & EA & H). apply mlift_inv in EA. destruct EA as [EA ->].
    apply mbind_ok in H. destruct H as (ge & w6 & EG & H). apply mlift_inv in EG. destruct EG as [EG ->].
    assert (ST : shape (tr Zb) = [k; (50 * Nn)%nat]) by (unfold tr; cbn [shape mk2]; now rewrite (nrows_shape2 _ Zb _ _ SB), (ncols_shape2 _ Zb _ _ SB)).
    rewrite (npdot2 A (tr Zb) (2 * m) k (50 * Nn) SA ST) in EA. apply Ok_eq in EA. subst AZ.
    destruct (bcast2_rcol _ _ _ (fun a b => Rleb b a) (mk2 (2 * m) (50 * Nn) (fun i j => sumf k (fun l => A.[i, l] * (tr Zb).[l, j]))) b (2 * m) (50 * Nn) eq_refl Sb) as (ge' & Eg & Sg & Vg).
    rewrite Eg in EG. apply Ok_eq in EG. subst ge'. rewrite (nrows_shape2 _ ge _ _ Sg), (ncols_shape2 _ ge _ _ Sg), (nrows_shape2 _ Zb _ _ SB) in H.
    rewrite mask_filter in H. set (keep := filter _ _) in H.
    assert (KI : forall r, In r keep <-> (r < 50 * Nn)%nat /\ inside (cand r)).
    { intros r. unfold keep. rewrite filter_In, in_seq, forallb_forall. split.
      - intros [K1 K2]. split; [lia|]. apply FE. intros i Hi. specialize (K2 i ltac:(apply in_seq; lia)). rewrite Vg in K2 by (auto; lia). apply Rleb_spec in K2. rewrite at_mk2 in K2.
        rewrite (sumf_ext k _ (fun l => A.[i, l] * (tr Zb).[l, r])); auto. intros l Hl. change ((tr Zb).[l, r]) with (Zb.[r, l]). rewrite VB by (auto; lia). reflexivity.
      - intros [K1 K2]. split; [lia|]. intros i Hi. apply in_seq in Hi. rewrite Vg by (auto; lia). apply Rleb_spec. rewrite at_mk2. apply FE in K2. specialize (K2 i ltac:(lia)).
        rewrite (sumf_ext k _ (fun l => A.[i, l] * cand r l)); auto. intros l Hl. change ((tr Zb).[l, r]) with (Zb.[r, l]). rewrite VB by auto. reflexivity. }
    assert (SS : StronglySorted lt keep) by apply filter_seq_sorted. clearbody keep.
    exists Nn, lo, hi, keep. split; [unfold Nn; lia|]. split; auto. split; auto.
    destruct (Z.leb_spec N (Z.of_nat (List.length keep))) as [HK|HK].
    - apply mbind_ok in H. destruct H as (Zr & w7 & EZ & H). apply mret_inv in H. destruct H as [-> ->]. apply mlift_inv in EZ. destruct EZ as [EZ ->].
      split; auto. cbv zeta. fold cand. split; auto. split; auto. assert (HK' : (Nn <= List.length keep)%nat) by (unfold Nn; lia). split; auto.
      assert (LK : List.length (firstn Nn keep) = Nn) by (apply firstn_length_le; auto).
      assert (SF : shape (of_rows k (map (row1 Zb) (firstn Nn keep))) = [Nn; k]) by (unfold of_rows; cbn [shape mk2]; rewrite map_length, LK; reflexivity).
      rewrite <- SF in EZ. rewrite reshape_id in EZ. apply Ok_eq in EZ. subst Zr. split; [exact SF|].
      intros i j Hi Hj. unfold of_rows. rewrite at_mk2. rewrite (nth_indep _ _ (row1 Zb 0%nat)) by (rewrite map_length; lia). rewrite map_nth. rewrite nth_firstn_lt by auto.
      change ((row1 Zb (nth i keep 0%nat)).[j]) with (Zb.[nth i keep 0%nat, j]). apply VB; auto. apply (KI (nth i keep 0%nat)). apply nth_In. lia.
    - apply mret_inv in H. destruct H as [-> ->]. split; auto. split; auto. split; auto. unfold Nn. lia.
  Qed.
End Rejection.
Print Assumptions C99_rejection.

(** ** Hit and run *)

Section HitRun.
  Context {G : gen} {U L : Type}.
  Notation W := (world G U L).
  Variables (W2 : nd R) (m k : nat) (s : nat -> R).

  (** the point z + t d *)
  Definition along (z : nd R) (d : nat -> R) (t : R) : nat -> R := fun j => z.[j, 0%nat] + t * d j.
  (** the direction that attempt number c of a step draws *)
  Definition dir_at (st : gst G) (c : nat) : nat -> R := fun j => normal_at st (c * k + j).
  (** a step of 1/4000000 along d meets some face of the polytope *)
  Definition blocked (z : nd R) (d : nat -> R) : Prop := exists r, (r < 2 * m)%nat /\ slack W2 m k s (along z d (/ 4000000)) r <= 0.
  (** face r is seen from z: it is further than sqrt(2^-52) *)
  Definition seen (z : nd R) (r : nat) : Prop := (r < 2 * m)%nat /\ sqrt (/ 2 ^ 52) < slack W2 m k s (fun j => z.[j, 0%nat]) r.
  (** z' lies at fraction u of the chord through z along d of the polytope cut
      out by the faces seen from z, none of which is parallel to d *)
  Definition chord_step (z : nd R) (d : nat -> R) (u : R) (z' : nd R) : Prop :=
    (forall r, seen z r -> slack W2 m k s (along z d 1) r <> slack W2 m k s (fun j => z.[j, 0%nat]) r) /\
    exists a b, a <= b /\ (forall t, (forall r, seen z r -> 0 <= slack W2 m k s (along z d t) r) <-> a <= t <= b) /\
      shape z' = [k; 1%nat] /\ forall j, (j < k)%nat -> z'.[j, 0%nat] = along z d (a + (b - a) * u) j.

  (** the points that follow z, and the state of the generator before and after *)
  Inductive hr_path : gst G -> nd R -> list (nd R) -> gst G -> Prop :=
  | path_done : forall st z, hr_path st z [] st
  | path_stuck : forall st z n, (forall c, (c < 49)%nat -> blocked z (dir_at st c)) -> hr_path st z (repeat z (S n)) (normal_state (50 * k) st)
  | path_step : forall st z c z' l st', (c < 49)%nat -> (forall c', (c' < c)%nat -> blocked z (dir_at st c')) -> ~ blocked z (dir_at st c) ->
      chord_step z (dir_at st c) (unif_at (normal_state ((c + 1) * k) st) 0) z' ->
      hr_path (unif_state 1 (normal_state ((c + 1) * k) st)) z' l st' -> hr_path st z (z' :: l) st'.

  (** (A, b) describes the polytope *)
  Definition pair_of (A b : nd R) : Prop := shape A = [(2 * m)%nat; k] /\ shape b = [(2 * m)%nat; 1%nat] /\
    forall (z : nat -> R) r, (r < 2 * m)%nat -> sumf k (fun j => A.[r, j] * z j) - b.[r, 0%nat] = slack W2 m k s z r.

  Lemma any2_spec : forall X r c, shape X = [r; c] -> (any2 X = true <-> exists i j, (i < r)%nat /\ (j < c)%nat /\ X.[i, j] = true).
  Proof.
    intros X r c H. unfold any2. rewrite (nrows_shape2 _ X _ _ H), (ncols_shape2 _ X _ _ H). rewrite existsb_exists. split.
    - intros (i & Hi & K). apply existsb_exists in K. destruct K as (j & Hj & K). apply in_seq in Hi. apply in_seq in Hj. exists i, j. split; [lia|]. split; [lia|auto].
    - intros (i & j & Hi & Hj & K). exists i. split; [apply in_seq; lia|]. apply existsb_exists. exists j. split; [apply in_seq; lia|auto].
  Qed.
  Lemma eps0_val : eps0 = / 4000000.
  Proof. unfold eps0. field. Qed.

  Lemma blocked_ext : forall z d d', (forall j, (j < k)%nat -> d j = d' j) -> blocked z d -> blocked z d'.
  Proof.
    intros z d d' E (r & Hr & H). exists r. split; auto. unfold slack in *. 
    assert (Q : forall i, sumf k (fun j => W2.[i, j] * along z d' (/ 4000000) j) = sumf k (fun j => W2.[i, j] * along z d (/ 4000000) j)).
    { intros i. apply sumf_ext. intros j Hj. unfold along. now rewrite E. }
    destruct (Nat.ltb r m); now rewrite Q.
  Qed.

  Lemma pick_dir_spec : forall A b z0, pair_of A b -> shape z0 = [k; 1%nat] -> forall rem (w w' : W) od, pick_dir A b z0 k rem w = (Ok od, w') ->
    match od with
    | None => (forall c, (c < rem)%nat -> blocked z0 (dir_at (rng w) c)) /\ w' = set_rng w (normal_state ((rem + 1) * k) (rng w))
    | Some d => shape d = [k; 1%nat] /\ exists c, (c < rem)%nat /\ (forall c', (c' < c)%nat -> blocked z0 (dir_at (rng w) c')) /\ ~ blocked z0 (dir_at (rng w) c) /\
        (forall j, (j < k)%nat -> d.[j, 0%nat] = dir_at (rng w) c j) /\ w' = set_rng w (normal_state ((c + 1) * k) (rng w))
    end.
  Proof.
    intros A b z0 (SA & Sb & Vp) Sz. induction rem as [|rem IH]; intros w w' od H; cbn [pick_dir] in H;
      apply mbind_ok in H; destruct H as (d & w1 & E & H); destruct (normal2_ev G (U := U) (L := L) k 1 w) as (d' & Ed & Sd & Vd); rewrite Ed in E; injection E as <- <-;
      apply mbind_ok in H; destruct H as (t & w1 & E & H); apply mlift_inv in E; destruct E as [E ->];
      destruct (bcast2_same _ _ _ Rplus z0 (amap (Rmult eps0) d') k 1 Sz Sd) as (t' & Et & St & Vt); rewrite Et in E; apply Ok_eq in E; subst t';
      apply mbind_ok in H; destruct H as (At & w1 & E & H); apply mlift_inv in E; destruct E as [E ->]; rewrite (npdot2 A t (2 * m) k 1 SA St) in E; apply Ok_eq in E; subst At;
      apply mbind_ok in H; destruct H as (le & w1 & E & H); apply mlift_inv in E; destruct E as [E ->];
      destruct (bcast2_same _ _ _ Rleb (mk2 (2 * m) 1 (fun i j => sumf k (fun l => A.[i, l] * t.[l, j]))) b (2 * m) 1 eq_refl Sb) as (le' & El & Sl & Vl); rewrite El in E; apply Ok_eq in E; subst le';
      rewrite Nat.mul_1_r in H.
    - apply mret_inv in H. destruct H as [-> ->]. split; [intros; lia|]. now rewrite Nat.mul_1_l.
    - assert (VD : forall j, (j < k)%nat -> d'.[j, 0%nat] = dir_at (rng w) 0 j).
      { intros j Hj. rewrite Vd by lia. unfold dir_at. f_equal. lia. }
      assert (BL : any2 le = true <-> blocked z0 (dir_at (rng w) 0)).
      { rewrite (any2_spec le (2 * m) 1 Sl). assert (Q : forall i, (i < 2 * m)%nat -> slack W2 m k s (along z0 (dir_at (rng w) 0) (/ 4000000)) i = sumf k (fun l => A.[i, l] * t.[l, 0%nat]) - b.[i, 0%nat]).
        { intros i Hi. rewrite <- Vp by auto. f_equal. apply sumf_ext. intros j Hj. rewrite Vt by lia. unfold along. change ((amap (Rmult eps0) d').[j, 0%nat]) with (eps0 * d'.[j, 0%nat]). rewrite VD by auto. now rewrite eps0_val. }
        split.
        - intros (i & j & Hi & Hj & K). assert (j = 0%nat) by lia. subst j. rewrite Vl in K by lia. rewrite at_mk2 in K. apply Rleb_spec in K. exists i. split; auto. rewrite Q by auto. lra.
        - intros (i & Hi & K). rewrite Q in K by auto. exists i, 0%nat. split; auto. split; [lia|]. rewrite Vl by lia. rewrite at_mk2. apply Rleb_spec. lra. }
      destruct (any2 le) eqn:EB.
      + assert (B0 := proj1 BL eq_refl). specialize (IH _ _ _ H). cbn [rng set_rng] in IH. 
        assert (SH : forall c j, dir_at (normal_state k (rng w)) c j = dir_at (rng w) (S c) j).
        { intros c j. unfold dir_at. rewrite normal_at_add. f_equal. lia. }
        assert (SW : forall c, set_rng (set_rng w (normal_state k (rng w))) (normal_state (c * k) (normal_state k (rng w))) = set_rng w (normal_state ((c + 1) * k) (rng w))).
        { intros c. replace ((c + 1) * k)%nat with (k + c * k)%nat by lia. now rewrite normal_state_add. }
        destruct od as [d|].
        * destruct IH as (Sd' & c & Hc & K1 & K2 & K3 & ->). split; auto. exists (S c). split; [lia|]. split.
          { intros [|c'] Hc'; [exact B0|]. apply (blocked_ext z0 (dir_at (normal_state k (rng w)) c')); [intros; apply SH|]. apply K1. lia. }
          split. { intros Q. apply K2. apply (blocked_ext z0 (dir_at (rng w) (S c))); [intros; symmetry; apply SH|auto]. }
          split; [intros j Hj; rewrite K3 by auto; apply SH|]. rewrite SW. now replace (S c + 1)%nat with (c + 1 + 1)%nat by lia.
        * destruct IH as (K1 & ->). split; [|rewrite SW; now replace (S rem + 1)%nat with (rem + 1 + 1)%nat by lia]. intros [|c] Hc; [exact B0|]. apply (blocked_ext z0 (dir_at (normal_state k (rng w)) c)); [intros; apply SH|]. apply K1. lia.
      + apply mret_inv in H. destruct H as [-> ->]. split; [exact Sd|]. exists 0%nat. split; [lia|]. split; [intros; lia|]. split; [intros Q; apply BL in Q; discriminate|]. split; [exact VD|]. now rewrite Nat.mul_1_l.
  Qed.

  Lemma fold_pick : forall (op : xr -> xr -> xr), (forall a b, op a b = a \/ op a b = b) -> forall l a, In (fold_left op l a) (a :: l).
  Proof.
    intros op H. induction l as [|y l IH]; intros a; [now left|]. cbn [fold_left]. destruct (IH (op a y)) as [E|E]; [|right; now right].
    rewrite <- E. destruct (H a y) as [-> | ->]; [now left|right; now left].
  Qed.
  Lemma xmin_pick : forall a b, xmin a b = a \/ xmin a b = b.
  Proof. intros a b. unfold xmin. destruct (xle a b); auto. Qed.
  Lemma xmax_pick : forall a b, xmax a b = a \/ xmax a b = b.
  Proof. intros a b. unfold xmax. destruct (xle a b); auto. Qed.

  Lemma hr_step_chord : forall A b z0 d (w w' : W) z1 (dv : nat -> R), pair_of A b -> shape z0 = [k; 1%nat] -> shape d = [k; 1%nat] -> (forall j, (j < k)%nat -> d.[j, 0%nat] = dv j) ->
    hr_step A b z0 d w = (Ok z1, w') -> chord_step z0 dv (unif_at (rng w) 0) z1 /\ w' = set_rng w (unif_state 1 (rng w)).
  Proof.
    intros A b z0 d w w' z1 dv (SA & Sb & Vp) Sz Sd Vd H.
    destruct (hr_step_inv (2 * m) k A b z0 d w w' z1 SA Sb Sz Sd H) as (S1 & mi & ma & e & E1 & E2 & E3 & V).
    set (f := mk2 (2 * m) 1 (fun i _ => b.[i, 0%nat] - sumf k (fun j => A.[i, j] * z0.[j, 0%nat]))) in *.
    set (g := mk2 (2 * m) 1 (fun i _ => sumf k (fun j => A.[i, j] * d.[j, 0%nat]))) in *.
    assert (NF : nrows f = (2 * m)%nat) by reflexivity.
    assert (FV : forall r, (r < 2 * m)%nat -> f.[r, 0%nat] = - slack W2 m k s (fun j => z0.[j, 0%nat]) r).
    { intros r Hr. rewrite <- Vp by auto. unfold f. rewrite at_mk2. ring. }
    assert (GV : forall r t, (r < 2 * m)%nat -> slack W2 m k s (along z0 dv t) r = slack W2 m k s (fun j => z0.[j, 0%nat]) r + t * g.[r, 0%nat]).
    { intros r t Hr. rewrite <- !Vp by auto. unfold g. rewrite at_mk2.
      rewrite (sumf_ext k (fun j => A.[r, j] * along z0 dv t j) (fun j => A.[r, j] * z0.[j, 0%nat] + t * (A.[r, j] * d.[j, 0%nat]))) by (intros j Hj; unfold along; rewrite Vd by auto; ring).
      rewrite sumf_plus, sumf_scal_l. ring. }
    clearbody f g.
    assert (SE : forall r, seen z0 r <-> (r < 2 * m)%nat /\ f.[r, 0%nat] < - sqrt_eps).
    { intros r. unfold seen. fold sqrt_eps. split; intros [Hr K]; split; auto; rewrite FV in * by auto; lra. }
    assert (SP := sqrt_eps_pos).
    assert (M1 : forall x, In x (ratios f g (fun g => Rleb g 0)) -> exists r, x = Fin r /\ ma <= r).
    { unfold np_amin in E1. destruct (ratios f g (fun g => Rleb g 0)) as [|a l] eqn:ER; [discriminate|]. apply Ok_eq in E1. apply (fold_xmin l a ma E1).
      intros x Hx. rewrite <- ER in Hx. apply ratios_inv in Hx. destruct Hx as (q & _ & -> & _ & Hf). cbn [xdiv]. destruct (Req_EM_T _ 0); [|right; eexists; reflexivity].
      left. unfold xsgninf. destruct (Rlt_dec 0 _); [lra|]. destruct (Rlt_dec _ 0); [reflexivity|lra]. }
    assert (A1 : In (Fin ma) (ratios f g (fun g => Rleb g 0))).
    { unfold np_amin in E1. destruct (ratios f g (fun g => Rleb g 0)) as [|a l]; [discriminate|]. apply Ok_eq in E1. rewrite <- E1. apply fold_pick, xmin_pick. }
    assert (A2 : In (Fin mi) (ratios f g (fun g => Rltb 0 g))).
    { unfold np_amax in E2. destruct (ratios f g (fun g => Rltb 0 g)) as [|a l]; [discriminate|]. apply Ok_eq in E2. rewrite <- E2. apply fold_pick, xmax_pick. }
    assert (M2 : forall x, In x (ratios f g (fun g => Rltb 0 g)) -> exists r, x = Fin r /\ r <= mi).
    { unfold np_amax in E2. destruct (ratios f g (fun g => Rltb 0 g)) as [|a l] eqn:ER; [discriminate|]. apply Ok_eq in E2.
      assert (K : forall x, In x (a :: l) -> exists r, x = Fin r).
      { intros x Hx. rewrite <- ER in Hx. apply ratios_inv in Hx. destruct Hx as (q & _ & -> & Hg & Hf). apply Rltb_spec in Hg. rewrite xdiv_fin by lra. eauto. }
      apply (fold_xmax l a mi E2); [apply K; now left|intros; apply K; now right]. }
    (* no seen face is parallel to d *)
    assert (NZ : forall r, seen z0 r -> g.[r, 0%nat] <> 0).
    { intros r Hr E0. apply SE in Hr. destruct Hr as [Hr Hf]. destruct (M1 (xdiv (Fin (f.[r, 0%nat])) (Fin (g.[r, 0%nat])))) as (x & Ex & _).
      - apply (ratios_in f g (fun g => Rleb g 0) r (2 * m)); auto. rewrite E0. apply Rleb_spec. lra.
      - rewrite E0 in Ex. cbn [xdiv] in Ex. destruct (Req_EM_T 0 0) as [_|n]; [|now apply n]. unfold xsgninf in Ex. destruct (Rlt_dec 0 _); [discriminate|]. destruct (Rlt_dec _ 0); discriminate. }
    (* the two ends are met *)
    assert (Q1 : exists r, seen z0 r /\ g.[r, 0%nat] < 0 /\ ma * g.[r, 0%nat] = f.[r, 0%nat]).
    { apply ratios_inv in A1. destruct A1 as (r & Hr & Ex & Hg & Hf). rewrite NF in Hr. apply Rleb_spec in Hg. assert (SR : seen z0 r) by (apply SE; auto). assert (N0 := NZ r SR).
      exists r. split; auto. split; [lra|]. rewrite xdiv_fin in Ex by auto. injection Ex as ->. field. auto. }
    assert (Q2 : exists r, seen z0 r /\ 0 < g.[r, 0%nat] /\ mi * g.[r, 0%nat] = f.[r, 0%nat]).
    { apply ratios_inv in A2. destruct A2 as (r & Hr & Ex & Hg & Hf). rewrite NF in Hr. apply Rltb_spec in Hg. assert (SR : seen z0 r) by (apply SE; auto).
      exists r. split; auto. split; [lra|]. rewrite xdiv_fin in Ex by lra. injection Ex as ->. field. lra. }
    split.
    - split.
      + intros r Hr E. apply (NZ r Hr). destruct Hr as [Hr _]. rewrite (GV r 1 Hr) in E. lra.
      + exists mi, ma. split.
        { destruct Q1 as (r1 & R1 & G1 & F1). destruct Q2 as (r2 & R2 & G2 & F2). apply SE in R1. apply SE in R2. assert (0 <= ma) by nra. assert (mi <= 0) by nra. lra. }
        split; [intros t; split|split; [exact S1|]].
        * intros K. destruct Q1 as (r1 & R1 & G1 & F1). destruct Q2 as (r2 & R2 & G2 & F2).
          assert (K1 := K r1 R1). assert (K2 := K r2 R2). destruct R1 as [R1 _]. destruct R2 as [R2 _]. rewrite GV in K1, K2 by auto. rewrite FV in F1, F2 by auto. split; nra.
        * intros [T1 T2] r Hr. assert (N0 := NZ r Hr). assert (HS := proj1 (SE r) Hr). destruct HS as [Hr' Hf]. rewrite GV by auto. assert (FV' := FV r Hr').
          destruct (Rlt_dec (g.[r, 0%nat]) 0) as [Hg|Hg].
          -- destruct (M1 (xdiv (Fin (f.[r, 0%nat])) (Fin (g.[r, 0%nat])))) as (x & Ex & Lx).
             { apply (ratios_in f g (fun g => Rleb g 0) r (2 * m)); auto. apply Rleb_spec. lra. }
             rewrite xdiv_fin in Ex by auto. injection Ex as Ex. assert (g.[r, 0%nat] * x = f.[r, 0%nat]) by (rewrite <- Ex; field; auto). nra.
          -- destruct (M2 (xdiv (Fin (f.[r, 0%nat])) (Fin (g.[r, 0%nat])))) as (x & Ex & Lx).
             { apply (ratios_in f g (fun g => Rltb 0 g) r (2 * m)); auto. apply Rltb_spec. lra. }
             rewrite xdiv_fin in Ex by auto. injection Ex as Ex. assert (g.[r, 0%nat] * x = f.[r, 0%nat]) by (rewrite <- Ex; field; auto). nra.
        * intros j Hj. rewrite V by auto. unfold along. rewrite Vd by auto. unfold draw_uniform in E3. unfold unif_at. cbn [unif_state]. destruct (g_unif G (rng w)) as [x st]. injection E3 as <- _. reflexivity.
    - unfold draw_uniform in E3. cbn [unif_state]. destruct (g_unif G (rng w)) as [x st]. injection E3 as _ <-. reflexivity.
  Qed.

  Lemma hr_walk_path : forall A b, pair_of A b -> forall rows z0 (w w' : W) l, shape z0 = [k; 1%nat] -> hr_walk A b z0 k rows w = (Ok l, w') ->
    List.length l = rows /\ (forall z, In z l -> shape z = [k; 1%nat]) /\ hr_path (rng w) z0 l (rng w') /\ w' = set_rng w (rng w').
  Proof.
    intros A b HP. induction rows as [|rows IH]; intros z0 w w' l Sz H; cbn [hr_walk] in H.
    - apply mret_inv in H. destruct H as [-> ->]. split; auto. split; [intros z []|]. split; [constructor|destruct w; reflexivity].
    - apply mbind_ok in H. destruct H as (od & w1 & E & H). assert (K := pick_dir_spec A b z0 HP Sz 49 w w1 od E). destruct od as [d|].
      + destruct K as (Sd & c & Hc & K1 & K2 & K3 & ->).
        apply mbind_ok in H. destruct H as (z1 & w2 & E1 & H). apply mbind_ok in H. destruct H as (rest & w3 & E2 & H). apply mret_inv in H. destruct H as [-> ->].
        destruct (hr_step_chord A b z0 d _ w2 z1 _ HP Sz Sd K3 E1) as (CS & ->). assert (S1 : shape z1 = [k; 1%nat]) by (destruct CS as (_ & a & b' & _ & _ & S1 & _); exact S1).
        destruct (IH z1 _ w3 rest S1 E2) as (LL & LS & LP & LW). split; [simpl; lia|]. split; [intros z [<-|Hz]; auto|]. cbn [rng set_rng] in *. split.
        * apply (path_step (rng w) z0 c z1 rest (rng w3)); auto.
        * rewrite LW. reflexivity.
      + destruct K as (K & ->). apply mret_inv in H. destruct H as [-> ->]. split; [apply repeat_length|]. split; [intros z Hz; apply repeat_spec in Hz; now subst z|].
        cbn [rng set_rng]. split; [|reflexivity]. apply path_stuck. exact K.
  Qed.
End HitRun.

(** Hit and run, for every generator, back end and polytope: the returned rows
    are the points of a path from the start.  At each point up to 49 directions
    are tried in turn, the first that is not blocked is taken, and the next
    point lies at the fraction u of the chord; u and the directions are the next
    numbers of the stream, none used twice.  When 49 directions in a row are
    blocked the path stays where it is for all rows left. *)
Theorem C99_hit_and_run : forall (G : gen) (U L : Type) (B : backend) m n N y W1 W2 (w w' : world G U L) Z,
  (n <= m)%nat -> shape W1 = [m; n] -> shape W2 = [m; (m - n)%nat] -> shape y = [n] -> linprog_ok (linprog B) -> gurobi_ok (gurobi B) ->
  hit_and_run_z B N y W1 W2 w = (Ok Z, w') ->
  let k := (m - n)%nat in
  exists Nn z0 l, N = Z.of_nat Nn /\ chebyshev_start B y W1 W2 w = (Ok z0, w) /\ shape z0 = [k; 1%nat] /\
    List.length l = Nn /\ hr_path W2 m k (shift W1 y n) (rng w) z0 l (rng w') /\ w' = set_rng w (rng w') /\
    shape Z = [Nn; k] /\ forall i j, (i < Nn)%nat -> (j < k)%nat -> Z.[i, j] = (nth i l z0).[j, 0%nat].
Proof.
  intros G U L B m n N y W1 W2 w w' Z Hn H1 H2 Hy HL HG E k. fold k in H2. unfold hit_and_run_z in E.
  apply mbind_ok in E. destruct E as ([m' n'] & u4 & E1 & E). apply mlift_inv in E1. destruct E1 as [E1 ->]. unfold shape2 in E1. rewrite H1 in E1. injection E1 as <- <-. fold k in E.
  apply mbind_ok in E. destruct E as (z0 & u4 & EC & E). destruct (chebyshev_inv B m n y W1 W2 w u4 z0 Hn H1 H2 Hy HL HG EC) as (-> & Sz & _). fold k in Sz.
  apply mbind_ok in E. destruct E as (s & u4 & E1 & E). apply mlift_inv in E1. destruct E1 as [E1 ->]. destruct (shift_of_ok W1 y m n H1 Hy) as (s' & Es & Ss & Vs). rewrite Es in E1. apply Ok_eq in E1. subst s'.
  apply mbind_ok in E. destruct E as ([A b] & u4 & E1 & E). apply mlift_inv in E1. destruct E1 as [E1 ->]. destruct (polytope_pair W2 s m k H2 Ss) as (A' & b' & Ep & SA & Sb & Vp). rewrite Ep in E1. injection E1 as -> ->.
  apply mbind_ok in E. destruct E as (Nn & u4 & E1 & E). apply mlift_inv in E1. destruct E1 as [E1 ->]. unfold dimZ in E1. destruct (Z.ltb_spec N 0); [discriminate|]. apply Ok_eq in E1.
  apply mbind_ok in E. destruct E as (l & u4 & EW & E). apply mret_inv in E. destruct E as [-> ->].
  assert (PO : pair_of W2 m k (shift W1 y n) A b).
  { split; [exact SA|]. split; [exact Sb|]. intros z q Hq. rewrite Vp by auto. unfold slack, shift. destruct (Nat.ltb_spec q m); rewrite Vs by lia; reflexivity. }
  destruct (hr_walk_path W2 m k _ A b PO Nn z0 w u4 l Sz EW) as (LL & LS & LP & LW).
  exists Nn, z0, l. split; [lia|]. split; auto. split; auto. split; auto. split; auto. split; auto. split.
  - unfold of_rows. cbn [shape mk2]. now rewrite map_length, LL.
  - intros i j Hi Hj. unfold of_rows. rewrite at_mk2. rewrite (nth_indep _ _ (mk1 k (fun j => z0.[j, 0%nat]))) by (rewrite map_length; lia).
    rewrite (map_nth (fun z : nd R => mk1 k (fun j => z.[j, 0%nat])) l z0 i). reflexivity.
Qed.
Print Assumptions C99_hit_and_run.

(** a step from a point that sees every face: the chord is the whole
    intersection of the line with the polytope, the old point lies strictly
    inside it, and the new point lies in the polytope *)
Theorem C99_chord : forall W2 m k s z d u z', chord_step W2 m k s z d u z' -> 0 <= u <= 1 -> (forall r, (r < 2 * m)%nat -> seen W2 m k s z r) ->
  exists a b, a < 0 < b /\ (forall t, inpoly W2 m k s (along z d t) <-> a <= t <= b) /\
    (forall j, (j < k)%nat -> z'.[j, 0%nat] = along z d (a + (b - a) * u) j) /\ inpoly W2 m k s (fun j => z'.[j, 0%nat]).
Proof.
  intros W2 m k s z d u z' (NP & a & b & AB & CH & SZ & V) HU SE.
  assert (IFF : forall t, inpoly W2 m k s (along z d t) <-> a <= t <= b).
  { intros t. rewrite <- CH, <- slack_poly. split; intros K r Hr; [apply K, Hr|apply K; auto]. }
  assert (LIN : forall t r, slack W2 m k s (along z d t) r = slack W2 m k s (fun j => z.[j, 0%nat]) r + t * (slack W2 m k s (along z d 1) r - slack W2 m k s (fun j => z.[j, 0%nat]) r)).
  { intros t r. assert (Q : forall i t, sumf k (fun j => W2.[i, j] * along z d t j) = sumf k (fun j => W2.[i, j] * z.[j, 0%nat]) + t * sumf k (fun j => W2.[i, j] * d j)).
    { intros i t0. rewrite <- sumf_scal_l, <- sumf_plus. apply sumf_ext. intros j Hj. unfold along. ring. }
    unfold slack. destruct (Nat.ltb r m); rewrite !Q; ring. }
  assert (SP := sqrt_eps_pos). unfold sqrt_eps in SP.
  (* a small step either way stays inside *)
  assert (EPS : forall p, (p <= 2 * m)%nat -> exists e, 0 < e /\ forall r, (r < p)%nat -> forall t, - e <= t <= e -> 0 <= slack W2 m k s (along z d t) r).
  { induction p as [|p IH]; intros Hp; [exists 1; split; [lra|intros; lia]|]. destruct (IH ltac:(lia)) as (e & E0 & E1).
    destruct (SE p ltac:(lia)) as [_ SL]. set (sl := slack W2 m k s (fun j => z.[j, 0%nat]) p) in *. set (g := slack W2 m k s (along z d 1) p - sl).
    assert (SL0 : 0 < sl) by lra. assert (GP : 0 <= Rabs g) by apply Rabs_pos. set (e2 := sl / (Rabs g + 1)). assert (E2 : 0 < e2) by (unfold e2; apply Rdiv_lt_0_compat; lra).
    exists (Rmin e e2). split; [apply Rmin_glb_lt; auto|]. intros r Hr t Ht. assert (M1 := Rmin_l e e2). assert (M2 := Rmin_r e e2).
    destruct (Nat.eq_dec r p) as [->|NE]; [|apply E1; [lia|lra]].
    rewrite LIN. fold sl. fold g. assert (Rabs (t * g) <= sl).
    { rewrite Rabs_mult. assert (Rabs t <= e2) by (apply Rabs_le; lra). assert (e2 * (Rabs g + 1) = sl) by (unfold e2; field; lra). assert (0 <= Rabs t) by apply Rabs_pos. nra. }
    assert (Q := Rle_abs (- (t * g))). rewrite Rabs_Ropp in Q. lra. }
  destruct (EPS (2 * m)%nat (le_n _)) as (e & E0 & E1).
  assert (P1 : a <= e <= b). { apply IFF. apply slack_poly. intros r Hr. apply E1; auto. lra. }
  assert (P2 : a <= - e <= b). { apply IFF. apply slack_poly. intros r Hr. apply E1; auto. lra. }
  exists a, b. split; [lra|]. split; auto. split; auto. apply (inpoly_ext W2 m k s (along z d (a + (b - a) * u))); [intros; symmetry; auto|]. apply IFF. nra.
Qed.
Print Assumptions C99_chord.

(** With one inactive variable, a step from a point that sees every face is a
    fresh uniform draw from the whole interval of the inactive variable: where
    the walk was does not matter. *)
Theorem C99_one_inactive : forall W2 m s z d u z' lo hi, chord_step W2 m 1 s z d u z' -> (forall r, (r < 2 * m)%nat -> seen W2 m 1 s z r) ->
  tight_box (inpoly W2 m 1 s) 1 lo hi ->
  (0 < d 0%nat /\ z'.[0%nat, 0%nat] = lo 0%nat + (hi 0%nat - lo 0%nat) * u) \/ (d 0%nat < 0 /\ z'.[0%nat, 0%nat] = lo 0%nat + (hi 0%nat - lo 0%nat) * (1 - u)).
Proof.
  intros W2 m s z d u z' lo hi (NP & a & b & AB & CH & SZ & V) SE TB. destruct (TB 0%nat ltac:(lia)) as (T1 & (zl & Il & El) & (zh & Ih & Eh)).
  assert (IFF : forall t, inpoly W2 m 1 s (along z d t) <-> a <= t <= b).
  { intros t. rewrite <- CH, <- slack_poly. split; intros K r Hr; [apply K, Hr|apply K; auto]. }
  assert (V0 := V 0%nat ltac:(lia)). set (x := z.[0%nat, 0%nat]) in *. set (d0 := d 0%nat) in *.
  assert (IA : inpoly W2 m 1 s (along z d a)) by (apply IFF; lra). assert (IB : inpoly W2 m 1 s (along z d b)) by (apply IFF; lra).
  assert (TA := T1 _ IA). assert (TBB := T1 _ IB). unfold along in TA, TBB, V0. fold x d0 in TA, TBB, V0.
  assert (D0 : d0 <> 0).
  { intros E. assert (Q : a <= b + 1 <= b); [|lra]. apply IFF. apply (inpoly_ext W2 m 1 s (along z d b)); auto. intros j Hj. assert (j = 0%nat) by lia. subst j. unfold along. fold d0. rewrite E. ring. }
  assert (END : forall y, inpoly W2 m 1 s y -> a <= (y 0%nat - x) / d0 <= b).
  { intros y Iy. apply IFF. apply (inpoly_ext W2 m 1 s y); auto. intros j Hj. assert (j = 0%nat) by lia. subst j. unfold along. fold x d0. field. auto. }
  assert (EL := END _ Il). assert (EH := END _ Ih). rewrite El in EL. rewrite Eh in EH.
  set (tl := (lo 0%nat - x) / d0) in *. set (th := (hi 0%nat - x) / d0) in *.
  assert (TL : x + tl * d0 = lo 0%nat) by (unfold tl; field; auto). assert (TH : x + th * d0 = hi 0%nat) by (unfold th; field; auto).
  destruct (Rlt_dec 0 d0) as [Dp|Dn].
  - left. split; auto. assert (Ea : x + a * d0 = lo 0%nat) by nra. assert (Eb : x + b * d0 = hi 0%nat) by nra. rewrite V0, <- Ea, <- Eb. ring.
  - right. split; [lra|]. assert (Eb : x + b * d0 = lo 0%nat) by nra. assert (Ea : x + a * d0 = hi 0%nat) by nra. rewrite V0, <- Ea, <- Eb. ring.
Qed.
Print Assumptions C99_one_inactive.

(** An input that is itself an active variable gives W2 a zero row, and the
    walk then never moves: its only results repeat the start.  (The bound on
    W1 y makes both faces of that input seen; in floats one of the two divisions
    by zero gives -inf whatever the signs of the zeros.) *)
Theorem C99_zero_row : forall (G : gen) (U L : Type) (B : backend) m n N y W1 W2 (w w' : world G U L) Z i,
  (n <= m)%nat -> shape W1 = [m; n] -> shape W2 = [m; (m - n)%nat] -> shape y = [n] -> linprog_ok (linprog B) -> gurobi_ok (gurobi B) ->
  (i < m)%nat -> (forall j, (j < m - n)%nat -> W2.[i, j] = 0) -> -1 + sqrt (/ 2 ^ 52) < shift W1 y n i < 1 - sqrt (/ 2 ^ 52) ->
  hit_and_run_z B N y W1 W2 w = (Ok Z, w') ->
  exists z0, chebyshev_start B y W1 W2 w = (Ok z0, w) /\ forall r j, (r < Z.to_nat N)%nat -> (j < m - n)%nat -> Z.[r, j] = z0.[j, 0%nat].
Proof.
  intros G U L B m n N y W1 W2 w w' Z i Hn H1 H2 Hy HL HG Hi H0 HS H.
  destruct (C99_hit_and_run G U L B m n N y W1 W2 w w' Z Hn H1 H2 Hy HL HG H) as (Nn & z0 & l & -> & EC & Sz & LL & LP & _ & _ & V). exists z0. split; auto. rewrite Nat2Z.id.
  set (k := (m - n)%nat) in *. set (s := shift W1 y n) in *.
  assert (R : exists c, l = repeat z0 c).
  { inversion LP as [st z E1 E2 E3|st z c K E1 E2 E3|st z c z' l' st' Hc K1 K2 CS PP E1 E2 E3]; subst; [exists 0%nat; reflexivity|exists (S c); reflexivity|exfalso].
    destruct CS as (NP & _).
    assert (SZ : forall x, sumf k (fun j => W2.[i, j] * x j) = 0) by (intros x; rewrite (sumf_ext k _ (fun _ => 0)) by (intros j Hj; rewrite H0 by auto; ring); apply sumf_0).
    assert (P1 : slack W2 m k s (fun j => z0.[j, 0%nat]) i = 1 + s i). { unfold slack. destruct (Nat.ltb_spec i m); [|lia]. rewrite SZ. ring. }
    apply (NP i); [split; [lia|rewrite P1; fold s in HS; lra]|]. unfold slack. destruct (Nat.ltb_spec i m); [|lia]. now rewrite !SZ. }
  destruct R as (c & ->). intros r j Hr Hj. rewrite V by auto. now rewrite nth_repeat.
Qed.
Print Assumptions C99_zero_row.

(** ** The random walk *)

Section WalkPath.
  Context {G : gen} {U L : Type}.
  Notation W := (world G U L).
  Variables (inside : (nat -> R) -> Prop) (k : nat) (sig : R).

  (** propose z + sig d with d the next k normal numbers; go there when that is
      inside, otherwise stay *)
  Definition propose (st : gst G) (z z' : nd R) : Prop :=
    (inside (along z (normal_at st) sig) /\ shape z' = [k; 1%nat] /\ forall j, (j < k)%nat -> z'.[j, 0%nat] = along z (normal_at st) sig j) \/
    (~ inside (along z (normal_at st) sig) /\ z' = z).
  Inductive rw_path : gst G -> nd R -> list (nd R) -> gst G -> Prop :=
  | walk_done : forall st z, rw_path st z [] st
  | walk_step : forall st z z' l st', propose st z z' -> rw_path (normal_state k st) z' l st' -> rw_path st z (z' :: l) st'.

  Lemma rw_path_app : forall st z l st1, rw_path st z l st1 -> forall l2 st2, rw_path st1 (last l z) l2 st2 -> rw_path st z (l ++ l2) st2.
  Proof.
    induction 1 as [st z|st z z' l st' P _ IH]; intros l2 st2 H2; [exact H2|]. cbn [app]. apply walk_step; auto. apply IH.
    replace (last l z') with (last (z' :: l) z); auto. destruct l as [|x l]; [reflexivity|]. cbn [last]. clear. revert x. induction l as [|y l IH]; intros x; [reflexivity|]. cbn [last]. apply IH.
  Qed.
End WalkPath.

Section WalkRun.
  Context {G : gen} {U L : Type}.
  Notation W := (world G U L).
  Variables (W2 sv : nd R) (m k : nat) (s : nat -> R) (sig : R).
  Hypothesis H2 : shape W2 = [m; k].
  Hypothesis Ss : shape sv = [m; 1%nat].
  Hypothesis Vs : forall i, (i < m)%nat -> sv.[i, 0%nat] = s i.

  Lemma rw_step_spec : forall z0 (w w' : W) z1, shape z0 = [k; 1%nat] -> rw_step W2 sv sig z0 w = (Ok z1, w') ->
    propose (inpoly W2 m k s) k sig (rng w) z0 z1 /\ shape z1 = [k; 1%nat] /\ w' = set_rng w (normal_state k (rng w)).
  Proof.
    intros z0 w w' z1 Sz H. unfold rw_step in H. rewrite (nrows_shape2 _ z0 _ _ Sz), (ncols_shape2 _ z0 _ _ Sz) in H.
    apply mbind_ok in H. destruct H as (d & w1 & E & H). destruct (normal2_ev G (U := U) (L := L) k 1 w) as (d' & Ed & Sd & Vd). rewrite Ed in E. injection E as <- <-.
    apply mbind_ok in H. destruct H as (zc & w1 & E & H). apply mlift_inv in E. destruct E as [E ->].
    destruct (bcast2_same _ _ _ Rplus z0 (amap (Rmult sig) d') k 1 Sz Sd) as (t' & Et & St & Vt). rewrite Et in E. apply Ok_eq in E. subst t'.
    apply mbind_ok in H. destruct H as (ok & w1 & E & H). apply mlift_inv in E. destruct E as [E ->]. destruct (in_polytope_ok m k W2 sv zc H2 Ss St) as (ok' & Eo & P). rewrite Eo in E. apply Ok_eq in E. subst ok'.
    apply mret_inv in H. destruct H as [-> ->]. rewrite Nat.mul_1_r.
    assert (VC : forall j, (j < k)%nat -> zc.[j, 0%nat] = along z0 (normal_at (rng w)) sig j).
    { intros j Hj. rewrite Vt by lia. change ((amap (Rmult sig) d').[j, 0%nat]) with (sig * d'.[j, 0%nat]). rewrite Vd by lia. unfold along. do 3 f_equal. lia. }
    assert (P' : ok = true <-> inpoly W2 m k s (along z0 (normal_at (rng w)) sig)).
    { rewrite P. split; intros K.
      - apply (inpoly_shift W2 m k (fun i => sv.[i, 0%nat])); [auto|]. apply (inpoly_ext W2 m k _ (fun j => zc.[j, 0%nat])); auto.
      - apply (inpoly_shift W2 m k s); [intros; symmetry; auto|]. apply (inpoly_ext W2 m k _ (along z0 (normal_at (rng w)) sig)); auto. intros; symmetry; auto. }
    split; [|split; [destruct ok; auto|reflexivity]]. destruct ok; [left|right]; split; auto; [now apply P'|]. intros Q. apply P' in Q. discriminate.
  Qed.
  Lemma rw_burn_spec : forall q z0 (w w' : W) z1 a, shape z0 = [k; 1%nat] -> mfold (fun z (_ : nat) => rw_step W2 sv sig z) z0 (seq a q) w = (Ok z1, w') ->
    shape z1 = [k; 1%nat] /\ exists l, List.length l = q /\ last l z0 = z1 /\ rw_path (inpoly W2 m k s) k sig (rng w) z0 l (rng w') /\ w' = set_rng w (rng w').
  Proof.
    induction q as [|q IH]; intros z0 w w' z1 a Sz H; cbn [seq mfold] in H.
    - apply mret_inv in H. destruct H as [-> ->]. split; auto. exists []. split; auto. split; auto. split; [constructor|destruct w; reflexivity].
    - apply mbind_ok in H. destruct H as (z & w1 & E & H). destruct (rw_step_spec z0 w w1 z Sz E) as (PR & S1 & ->). destruct (IH z _ w' z1 _ S1 H) as (S2 & l & LL & LZ & LP & LW).
      split; auto. exists (z :: l). split; [simpl; lia|]. split.
      { rewrite <- LZ. destruct l as [|x l]; [reflexivity|]. cbn [last]. clear. revert x. induction l as [|y l IH]; intros x; [reflexivity|]. cbn [last]. apply IH. }
      cbn [rng set_rng] in *. split; [now apply walk_step with (z' := z)|]. rewrite LW. reflexivity.
  Qed.
  Lemma rw_walk_spec : forall q z0 (w w' : W) l, shape z0 = [k; 1%nat] -> rw_walk W2 sv sig z0 q w = (Ok l, w') ->
    List.length l = q /\ rw_path (inpoly W2 m k s) k sig (rng w) z0 l (rng w') /\ w' = set_rng w (rng w').
  Proof.
    induction q as [|q IH]; intros z0 w w' l Sz H; cbn [rw_walk] in H.
    - apply mret_inv in H. destruct H as [-> ->]. split; auto. split; [constructor|destruct w; reflexivity].
    - apply mbind_ok in H. destruct H as (z & w1 & E & H). destruct (rw_step_spec z0 w w1 z Sz E) as (PR & S1 & ->). 
      apply mbind_ok in H. destruct H as (rest & w2 & E2 & H). apply mret_inv in H. destruct H as [-> ->]. destruct (IH z _ w2 rest S1 E2) as (LL & LP & LW).
      split; [simpl; lia|]. cbn [rng set_rng] in *. split; [now apply walk_step with (z' := z)|]. rewrite LW. reflexivity.
  Qed.
End WalkRun.

(** The random walk: 11 N steps of proposals with a fixed step size, from the
    origin when that is feasible and otherwise from the projection of a feasible
    x; the first 10 N are thrown away; the kept points are laid out as the
    columns of a (m-n)-by-N array whose entries, read row by row, fill Z. *)
Theorem C99_random_walk : forall (G : gen) (U L : Type) (B : backend) sb m n Wm W1 W2 y N (w w' : world G U L) Z,
  frame sb m n Wm W1 W2 -> shape y = [n] -> linprog_ok (linprog B) -> gurobi_ok (gurobi B) ->
  random_walk_z B N y W1 W2 w = (Ok Z, w') ->
  let k := (m - n)%nat in let s := shift W1 y n in let inside := inpoly W2 m k s in
  exists Nn z0 sig burn kept, N = Z.of_nat Nn /\ shape z0 = [k; 1%nat] /\
    (* the start *)
    (inside (fun _ => 0) -> forall j, (j < k)%nat -> z0.[j, 0%nat] = 0) /\ inside (fun j => z0.[j, 0%nat]) /\
    (* the step size *)
    (let dist c := sqrt (sumf m (fun i => (s i + sumf k (fun j => W2.[i, j] * z0.[j, 0%nat]) - c) ^ 2)) in sig = / 10 * Rmin (dist 1) (dist (-1))) /\
    (* the walk *)
    List.length burn = (10 * Nn)%nat /\ List.length kept = Nn /\ rw_path inside k sig (rng w) z0 (burn ++ kept) (rng w') /\ w' = set_rng w (rng w') /\
    shape Z = [Nn; k] /\ forall r j, (r < Nn)%nat -> (j < k)%nat -> Z.[r, j] = (nth ((r * k + j) mod Nn) kept z0).[((r * k + j) / Nn)%nat, 0%nat].
Proof.
  intros G U L B sb m n Wm W1 W2 y N w w' Z F Hy HL HG H k s inside.
  assert (H1 := fr_s1 _ _ _ _ _ _ F). assert (H2 := fr_s2 _ _ _ _ _ _ F). assert (Hn := fr_le _ _ _ _ _ _ F). fold k in H2.
  unfold random_walk_z in H. apply mbind_ok in H. destruct H as ([m' n'] & w1 & E & H). apply mlift_inv in E. destruct E as [E ->]. unfold shape2 in E. rewrite H1 in E. injection E as <- <-. fold k in H.
  apply mbind_ok in H. destruct H as (sv & w1 & E & H). apply mlift_inv in E. destruct E as [E ->]. destruct (shift_of_ok W1 y m n H1 Hy) as (s' & Es & Ss & Vs). rewrite Es in E. apply Ok_eq in E. subst s'.
  assert (Vs' : forall i, (i < m)%nat -> sv.[i, 0%nat] = s i) by exact Vs.
  assert (IPE : forall z, inpoly W2 m k (fun i => sv.[i, 0%nat]) z <-> inside z).
  { intros z. split; apply inpoly_shift; intros; [|symmetry]; auto. }
  apply mbind_ok in H. destruct H as (z0 & w1 & EZ & H).
  assert (ST : w1 = w /\ shape z0 = [k; 1%nat] /\ inside (fun j => z0.[j, 0%nat]) /\ (inside (fun _ => 0) -> forall j, (j < k)%nat -> z0.[j, 0%nat] = 0)).
  { destruct (all2 (mk2 m 1 (fun i _ => Rleb 0 (1 - sv.[i, 0%nat]))) && all2 (mk2 m 1 (fun i _ => Rleb (-1 - sv.[i, 0%nat]) 0)))%bool eqn:EQ.
    - apply mret_inv in EZ. destruct EZ as [-> ->]. split; auto. split; [reflexivity|]. split; [|intros; reflexivity]. apply IPE. apply andb_true_iff in EQ. destruct EQ as [Q1 Q2].
      intros i Hi. assert (A1 := proj1 (all2_spec (mk2 m 1 (fun i _ => Rleb 0 (1 - sv.[i, 0%nat]))) m 1 eq_refl) Q1 i 0%nat Hi ltac:(lia)).
      assert (A2 := proj1 (all2_spec (mk2 m 1 (fun i _ => Rleb (-1 - sv.[i, 0%nat]) 0)) m 1 eq_refl) Q2 i 0%nat Hi ltac:(lia)). rewrite at_mk2 in A1, A2. apply Rleb_spec in A1. apply Rleb_spec in A2.
      rewrite (sumf_ext k _ (fun _ => 0)) by (intros; unfold zeros2; rewrite at_mk2; ring). rewrite sumf_0. lra.
    - apply mbind_ok in EZ. destruct EZ as (y' & w2 & E & EZ). apply mlift_inv in E. destruct E as [E ->]. destruct (flat_col y n Hy) as (y2 & Ey & Sy & Vy). rewrite Ey in E. apply Ok_eq in E. subst y2.
      apply mbind_ok in EZ. destruct EZ as (x0 & w2 & EL & EZ). apply mbind_ok in EZ. destruct EZ as (z & w3 & E & EZ). apply mlift_inv in E. destruct E as [E ->]. apply mlift_inv in EZ. destruct EZ as [EZ ->].
      assert (ST1 : shape (tr W1) = [n; m]) by (unfold tr; cbn [shape mk2]; now rewrite (nrows_shape2 _ W1 _ _ H1), (ncols_shape2 _ W1 _ _ H1)).
      assert (ST2 : shape (tr W2) = [k; m]) by (unfold tr; cbn [shape mk2]; now rewrite (nrows_shape2 _ W2 _ _ H2), (ncols_shape2 _ W2 _ _ H2)).
      destruct (proj1 (C51_linear_programs_solved (G := G) (U := U) (L := L) B "GUROBI" n m (zeros2 m 1) (tr W1) y' (mk2 m 1 (fun _ _ => -1)) (ones2 m 1) w w2 x0 HL HG eq_refl ST1 Sy eq_refl eq_refl) EL) as [(Sx & (Fx & Bx) & _) ->].
      rewrite (npdot2 (tr W2) x0 k m 1 ST2 Sx) in E. apply Ok_eq in E. subst z.
      change [k; 1%nat] with (shape (mk2 k 1 (fun i j => sumf m (fun l => (tr W2).[i, l] * x0.[l, j])))) in EZ. rewrite reshape_id in EZ. apply Ok_eq in EZ. subst z0. split; auto. split; [reflexivity|]. split.
      + intros c Hc. specialize (Bx c Hc). rewrite at_mk2 in Bx. change ((ones2 m 1).[c, 0%nat]) with 1 in Bx. unfold s, shift.
        rewrite (frame_split _ _ _ _ _ _ (fun c => x0.[c, 0%nat]) c F Hc) in Bx. fold k in Bx.
        rewrite (sumf_ext n _ (fun j => W1.[c, j] * sumf m (fun a => x0.[a, 0%nat] * W1.[a, j]))).
        2: { intros j Hj. f_equal. specialize (Fx j Hj). rewrite Vy in Fx by auto. rewrite <- Fx. apply sumf_ext. intros a Ha. change ((tr W1).[j, a]) with (W1.[a, j]). ring. }
        rewrite (sumf_ext k (fun j => W2.[c, j] * (mk2 k 1 _).[j, 0%nat]) (fun j => W2.[c, j] * sumf m (fun a => x0.[a, 0%nat] * W2.[a, j]))); [exact Bx|].
        intros j Hj. rewrite at_mk2. f_equal. apply sumf_ext. intros a Ha. change ((tr W2).[j, a]) with (W2.[a, j]). ring.
      + intros I0. exfalso. apply IPE in I0. assert (Q : forall i, (i < m)%nat -> -1 <= sv.[i, 0%nat] <= 1).
        { intros i Hi. specialize (I0 i Hi). cbv beta in I0. rewrite (sumf_ext k _ (fun _ => 0)) in I0 by (intros; ring). rewrite sumf_0 in I0. lra. }
        assert (EQ' : (all2 (mk2 m 1 (fun i _ => Rleb 0 (1 - sv.[i, 0%nat]))) && all2 (mk2 m 1 (fun i _ => Rleb (-1 - sv.[i, 0%nat]) 0)))%bool = true); [|rewrite EQ' in EQ; discriminate].
        apply andb_true_iff. split; (eapply (proj2 (all2_spec (mk2 m 1 _) m 1 eq_refl)); intros i j Hi Hj; rewrite at_mk2; apply Rleb_spec; specialize (Q i Hi); lra). }
  destruct ST as (-> & Sz & Pz & ZZ).
  apply mbind_ok in H. destruct H as (Wz & w2 & E & H). apply mlift_inv in E. destruct E as [E ->]. rewrite (npdot2 W2 z0 m k 1 H2 Sz) in E. apply Ok_eq in E. subst Wz.
  apply mbind_ok in H. destruct H as (ws & w3 & E & H). apply mlift_inv in E. destruct E as [E ->].
  destruct (bcast2_same _ _ _ Rplus (mk2 m 1 (fun i j => sumf k (fun l => W2.[i, l] * z0.[l, j]))) sv m 1 eq_refl Ss) as (ws' & Ew & Sw & Vw). rewrite Ew in E. apply Ok_eq in E. subst ws'.
  set (sig := / 10 * Rmin _ _) in H.
  assert (SG : let dist c := sqrt (sumf m (fun i => (s i + sumf k (fun j => W2.[i, j] * z0.[j, 0%nat]) - c) ^ 2)) in sig = / 10 * Rmin (dist 1) (dist (-1))).
  { cbv zeta. unfold sig. f_equal.
    assert (Q : forall c (f : R -> R), (forall x, f x = x - c) -> norm_col (amap f ws) = sqrt (sumf m (fun i => (s i + sumf k (fun j => W2.[i, j] * z0.[j, 0%nat]) - c) ^ 2))).
    { intros c f Hf. unfold norm_col. change (nrows (amap f ws)) with (nrows ws). change (ncols (amap f ws)) with (ncols ws). rewrite (nrows_shape2 _ ws _ _ Sw), (ncols_shape2 _ ws _ _ Sw). f_equal.
      apply sumf_ext. intros i Hi. cbn [sumf]. change ((amap f ws).[i, 0%nat]) with (f (ws.[i, 0%nat])). rewrite Hf, Vw by lia. rewrite at_mk2, Vs' by auto. ring. }
    rewrite (Q 1), (Q (-1)); [reflexivity|intros; ring|intros; ring]. }
  clearbody sig.
  apply mbind_ok in H. destruct H as (z1 & w4 & EB & H).
  destruct (rw_burn_spec W2 sv m k s sig H2 Ss Vs' _ z0 w w4 z1 0 Sz EB) as (S1 & burn & LB & LZ & PB & WB).
  apply mbind_ok in H. destruct H as (Nn & w5 & E & H). apply mlift_inv in E. destruct E as [E ->]. unfold dimZ in E. destruct (Z.ltb_spec N 0); [discriminate|]. apply Ok_eq in E.
  apply mbind_ok in H. destruct H as (l & w6 & EW & H). apply mlift_inv in H. destruct H as [H ->].
  destruct (rw_walk_spec W2 sv m k s sig H2 Ss Vs' Nn z1 w4 w6 l S1 EW) as (LL & LP & LW).
  set (mat := mk2 k Nn (fun i j => (nth j l z1).[i, 0%nat])) in H.
  destruct (reshape_ok R [Nn; k] mat) as (Z' & EZ' & SZ & VZ); [unfold size; cbn [shape mat mk2 prodn]; lia|]. rewrite EZ' in H. apply Ok_eq in H. subst Z'.
  exists Nn, z0, sig, burn, l. split; [lia|]. split; auto. split; auto. split; auto. split; auto. split; [rewrite LB; lia|]. split; auto. split.
  { apply rw_path_app with (st1 := rng w4); auto. rewrite LZ. exact LP. }
  split; [rewrite LW, WB; reflexivity|]. split; auto.
  intros r j Hr Hj. rewrite VZ by (constructor; [lia|constructor; [lia|constructor]]). cbn [shape mat mk2]. unfold ravel, unravel, prodn. rewrite !Nat.mul_1_r, Nat.add_0_r, Nat.div_1_r.
  unfold mat. rewrite at_mk2. f_equal. apply nth_indep. rewrite LL. apply Nat.mod_upper_bound. lia.
Qed.
Print Assumptions C99_random_walk.

(** ** sample_z: rejection first, and hit and run with the numbers that follow
    when too few points were accepted *)
Theorem C99_sample_z : forall (G : gen) (U L : Type) (B : backend) m n N y W1 W2 (w w' : world G U L) Z,
  shape W1 = [m; n] -> shape W2 = [m; (m - n)%nat] -> shape y = [n] -> linprog_ok (linprog B) -> gurobi_ok (gurobi B) ->
  sample_z B (IsA N) y W1 W2 w = (Ok Z, w') ->
  let k := (m - n)%nat in let inside := inpoly W2 m k (shift W1 y n) in let later Nn := unif_state (50 * Nn * k) (rng w) in
  exists Nn lo hi idx, N = Z.of_nat Nn /\ shape Z = [Nn; k] /\ tight_box inside k lo hi /\ StronglySorted lt idx /\
    let cand r j := lo j + (hi j - lo j) * unif_at (rng w) (r * k + j) in
    (forall r, In r idx <-> (r < 50 * Nn)%nat /\ inside (cand r)) /\
    (((Nn <= List.length idx)%nat /\ rng w' = later Nn /\ forall i j, (i < Nn)%nat -> (j < k)%nat -> Z.[i, j] = cand (nth i idx 0%nat) j) \/
     ((List.length idx < Nn)%nat /\ exists z0 l, chebyshev_start B y W1 W2 (set_rng w (later Nn)) = (Ok z0, set_rng w (later Nn)) /\
        hr_path W2 m k (shift W1 y n) (later Nn) z0 l (rng w') /\ List.length l = Nn /\ forall i j, (i < Nn)%nat -> (j < k)%nat -> Z.[i, j] = (nth i l z0).[j, 0%nat])).
Proof.
  intros G U L B m n N y W1 W2 w w' Z H1 H2 Hy HL HG H k inside later. unfold sample_z in H. apply mbind_ok in H. destruct H as (o & w1 & ER & H).
  destruct (C99_rejection B m n N y W1 W2 w w1 o H1 H2 Hy HL HG ER) as (Nn & lo & hi & idx & -> & Hn & TB & -> & SS & KI & KO). fold k in TB, SS, KI, KO, H |- *. fold inside in TB, KI.
  exists Nn, lo, hi, idx. split; auto. destruct o as [Z1|].
  - destruct KO as (LK & SZ & VZ). apply mret_inv in H. destruct H as [-> ->]. split; auto. split; auto. split; auto.
  - destruct (C99_hit_and_run G U L B m n _ y W1 W2 _ w' Z Hn H1 H2 Hy HL HG H) as (N' & z0 & l & EN & EC & Sz & LL & LP & LW & SZ & V). apply Nat2Z.inj in EN. subst N'.
    split; auto. split; auto. split; auto. split; auto. right. split; auto. exists z0, l. split; auto.
Qed.
Print Assumptions C99_sample_z.

(** Rejection sampling always returns when the polytope holds a point, scipy
    solves the programs, and N >= 0 *)
Theorem C99_rejection_returns : forall (G : gen) (U L : Type) (B : backend) sb m n Nn Wm W1 W2 y (w : world G U L),
  frame sb m n Wm W1 W2 -> shape y = [n] -> has_gurobi B = false -> linprog_ok (linprog B) -> linprog_total (linprog B) ->
  (exists z, inpoly W2 m (m - n) (shift W1 y n) z) ->
  exists o w', rejection_sampling_z B (Z.of_nat Nn) y W1 W2 w = (Ok o, w').
Proof.
  intros G U L B sb m n Nn Wm W1 W2 y w F Hy HG HL HT (zin & Hin).
  assert (H1 := fr_s1 _ _ _ _ _ _ F). assert (H2 := fr_s2 _ _ _ _ _ _ F). assert (Hn := fr_le _ _ _ _ _ _ F). set (k := (m - n)%nat) in *. set (inside := inpoly W2 m k (shift W1 y n)) in *.
  destruct (shift_of_ok W1 y m n H1 Hy) as (s & Es & Ss & Vs). destruct (polytope_pair W2 s m k H2 Ss) as (A & b & Ep & SA & Sb & Vp).
  assert (FE : forall z, doc_ineq A b (2 * m) k z <-> inside z).
  { intros z. unfold inside. rewrite <- slack_poly. split; intros K r Hr; specialize (K r Hr); assert (Q := Vp z r Hr).
    - replace (slack W2 m k (shift W1 y n) z r) with (slack W2 m k (fun i => s.[i, 0%nat]) z r); [lra|]. unfold slack. destruct (Nat.ltb_spec r m); rewrite Vs by lia; reflexivity.
    - replace (slack W2 m k (shift W1 y n) z r) with (slack W2 m k (fun i => s.[i, 0%nat]) z r) in K; [lra|]. unfold slack. destruct (Nat.ltb_spec r m); rewrite Vs by lia; reflexivity. }
  (* the polytope is bounded *)
  assert (BD : forall z j, inside z -> (j < k)%nat -> Rabs (z j) <= sumf m (fun c => Rabs (W2.[c, j]))).
  { intros z j Hz Hj. set (x := fun c => shift W1 y n c + sumf k (fun a => W2.[c, a] * z a)).
    set (v := fun e => if Nat.ltb e n then y.[e] else z (e - n)%nat).
    assert (XV : forall c, (c < m)%nat -> x c = sumf m (fun e => Wm.[c, e] * v e)).
    { intros c Hc. rewrite (frame_sum _ _ _ _ _ _ c v F Hc). unfold x, shift, v. fold k. f_equal; apply sumf_ext; intros e He.
      - destruct (Nat.ltb_spec e n); [reflexivity|lia].
      - destruct (Nat.ltb_spec (n + e) n); [lia|]. now replace (n + e - n)%nat with e by lia. }
    assert (ZJ : z j = sumf m (fun c => x c * W2.[c, j])).
    { rewrite (sumf_ext m _ (fun c => sumf m (fun e => v e * (Wm.[c, e] * Wm.[c, (n + j)%nat])))).
      2: { intros c Hc. rewrite XV by auto. rewrite (fr_e2 _ _ _ _ _ _ F) by auto. rewrite <- sumf_scal_r. apply sumf_ext. intros; ring. }
      rewrite sumf_swap. rewrite (sumf_ext m _ (fun e => v e * kron_delta e (n + j))).
      2: { intros e He. rewrite sumf_scal_l. f_equal. apply (frame_ortho _ _ _ _ _ _ F); auto. unfold k in Hj. lia. }
      rewrite sumf_kd_r by (unfold k in Hj; lia). unfold v. destruct (Nat.ltb_spec (n + j) n); [lia|]. now replace (n + j - n)%nat with j by lia. }
    rewrite ZJ. eapply Rle_trans; [apply sumf_abs|]. apply sumf_le. intros c Hc. rewrite Rabs_mult. assert (X1 : Rabs (x c) <= 1) by (apply Rabs_le; specialize (Hz c Hc); unfold x; lra).
    assert (0 <= Rabs (W2.[c, j])) by apply Rabs_pos. nra. }
  assert (QI : qp_init B "GUROBI" = "SCIPY"%string). { apply (proj1 (proj2 (C51_solver_names B "GUROBI"))). now right. }
  assert (LP : forall i v (w0 : world G U L), (i < k)%nat -> v = 1 \/ v = -1 -> exists z, linear_program_ineq B (qp_init B "GUROBI") (unit_col k i v) A b w0 = (Ok z, w0) /\ shape z = [k; 1%nat]).
  { intros i v w0 Hi Hv. rewrite QI. destruct (C51_linear_program_ineq_posed (G := G) (U := U) (L := L) B (2 * m) k (unit_col k i v) A b eq_refl SA Sb) as [(P & PW & PF & PO & PR) _].
    destruct (HT P k (- sumf m (fun c => Rabs (W2.[c, i])))) as (x & Ex); auto.
    - exists zin. apply PF, FE. exact Hin.
    - intros x Hx. rewrite PO, unit_obj by auto. apply PF, FE in Hx. assert (Q := BD x i Hx Hi). assert (Q1 := Rle_abs (x i)). assert (Q2 := Rle_abs (- x i)). rewrite Rabs_Ropp in Q2. destruct Hv as [-> | ->]; lra.
    - destruct (HL P k x PW Ex) as (Sx & _). destruct (flat_col x k Sx) as (zc & Ez & Sz & Vz). exists zc. split; auto. rewrite PR. unfold lp_outcome. now rewrite Ex, Ez. }
  assert (BOX : forall l (w0 : world G U L), (forall i, In i l -> (i < k)%nat) -> exists bx,
        mmap (fun i => dom zl <- linear_program_ineq B (qp_init B "GUROBI") (unit_col k i 1) A b; dom l <- mlift (get2 zl i 0);
          dom zu <- linear_program_ineq B (qp_init B "GUROBI") (unit_col k i (-1)) A b; dom u <- mlift (get2 zu i 0); mret (l, u)) l w0 = (Ok bx, w0)).
  { induction l as [|i l IH]; intros w0 Hl; cbn [mmap]; [eexists; reflexivity|]. assert (Hi : (i < k)%nat) by (apply Hl; now left).
    destruct (LP i 1 w0 Hi (or_introl eq_refl)) as (zl & E1 & S1). destruct (LP i (-1) w0 Hi (or_intror eq_refl)) as (zu & E2 & S2). destruct (IH w0 ltac:(intros; apply Hl; now right)) as (bx & E3).
    assert (GE : forall z : nd R, shape z = [k; 1%nat] -> get2 z i 0 = Ok (z.[i, 0%nat])). { intros z Sz. unfold get2. rewrite Sz. destruct (Nat.ltb_spec i k); [reflexivity|lia]. }
    exists ((zl.[i, 0%nat], zu.[i, 0%nat]) :: bx). rewrite (nb _ _ w0 (zl.[i, 0%nat], zu.[i, 0%nat]) w0); [rewrite (nb _ _ w0 bx w0 E3); reflexivity|].
    unfold mbind. rewrite E1. unfold mlift. rewrite (GE zl S1). rewrite E2. rewrite (GE zu S2). reflexivity. }
  destruct (BOX (seq 0 k) w ltac:(intros i Hi; apply in_seq in Hi; lia)) as (box & EB).
  unfold rejection_sampling_z. unfold mbind at 1, mlift at 1. unfold shape2. rewrite H1. unfold mbind at 1, mlift at 1. rewrite Es. unfold mbind at 1, mlift at 1. rewrite Ep.
  unfold mbind at 1, mlift at 1. rewrite (proj2 (Nat.leb_le n m) Hn). cbn [guard]. cbv zeta. fold k. unfold mbind at 1. rewrite EB.
  destruct (uniform2_ev G (U := U) (L := L) (-1) 1 (50 * Nn) k w) as (Zu & EU & SU & VU).
  destruct (unnormalize_box (fun j => fst (nth j box (0, 0))) (fun j => snd (nth j box (0, 0))) (50 * Nn) k Zu SU) as (bn & Zx & Ebn & Ezx & SZx & VZx).
  unfold mbind at 1, mlift at 1. rewrite Ebn. unfold mbind at 1, mlift at 1. unfold dimZ. destruct (Z.ltb_spec (50 * Z.of_nat Nn) 0); [lia|]. replace (Z.to_nat (50 * Z.of_nat Nn)) with (50 * Nn)%nat by lia.
  unfold mbind at 1. rewrite EU. unfold mbind at 1, mlift at 1. rewrite Ezx. set (Zb := amap fin Zx). assert (SB : shape Zb = [(50 * Nn)%nat; k]) by exact SZx.
  assert (ST : shape (tr Zb) = [k; (50 * Nn)%nat]) by (unfold tr; cbn [shape mk2]; now rewrite (nrows_shape2 _ Zb _ _ SB), (ncols_shape2 _ Zb _ _ SB)).
  unfold mbind at 1, mlift at 1. rewrite (npdot2 A (tr Zb) (2 * m) k (50 * Nn) SA ST).
  destruct (bcast2_rcol _ _ _ (fun a b => Rleb b a) (mk2 (2 * m) (50 * Nn) (fun i j => sumf k (fun l => A.[i, l] * (tr Zb).[l, j]))) b (2 * m) (50 * Nn) eq_refl Sb) as (ge & Eg & Sg & Vg).
  unfold mbind at 1, mlift at 1. rewrite Eg. set (keep := mask_select _ _). destruct (Z.leb_spec (Z.of_nat Nn) (Z.of_nat (List.length keep))) as [HK|HK]; [|eexists; eexists; reflexivity].
  rewrite Nat2Z.id. assert (SF : shape (of_rows k (map (row1 Zb) (firstn Nn keep))) = [Nn; k]).
  { unfold of_rows. cbn [shape mk2]. rewrite map_length, firstn_length_le by lia. reflexivity. }
  rewrite <- SF. unfold mbind, mlift. rewrite reshape_id. eexists; eexists; reflexivity.
Qed.
Print Assumptions C99_rejection_returns.

(** ** Concrete cases *)

(** two inputs, the first of which is the active variable *)
Definition I2 : nd R := mk2 2 2 (fun i j => if Nat.eqb i j then 1 else 0).
Definition I21 : nd R := cols_slice I2 0 1.
Definition I22 : nd R := cols_slice I2 1 2.
Lemma frameI : frame (Subs None (Some I2) (Some I21) (Some I22) None None) 2 1 I2 I21 I22.
Proof.
  split; try reflexivity; try lia. intros a b Ha Hb. destruct a as [|[|a]]; try lia; destruct b as [|[|b]]; try lia; simpl; lra.
Qed.
Lemma half_ok : 0 <= 1 / 2 < 1. Proof. lra. Qed.
Definition gen99 : gen := flat_gen (10 ^ 7) (1 / 2) half_ok.
Definition w99 : world gen99 unit unit := World (tt : gst gen99) tt [] 0.

Lemma insideI : forall z, inpoly I22 2 1 (shift I21 (vec_of [0]) 1) z <-> -1 <= z 0%nat <= 1.
Proof.
  intros z. split; [intros H|intros H i Hi].
  - specialize (H 1%nat ltac:(lia)). unfold shift in H. cbn in H. lra.
  - destruct i as [|[|i]]; try lia; unfold shift; cbn; lra.
Qed.

Lemma pick_dir_total : forall (G : gen) (U L : Type) A b z0 p k, shape A = [p; k] -> shape b = [p; 1%nat] -> shape z0 = [k; 1%nat] ->
  forall rem (w : world G U L), exists od w', pick_dir A b z0 k rem w = (Ok od, w').
Proof.
  intros G U L A b z0 p k SA Sb Sz. induction rem as [|rem IH]; intros w; cbn [pick_dir];
    destruct (normal2_ev G (U := U) (L := L) k 1 w) as (d & Ed & Sd & Vd); rewrite (nb _ _ w d _ Ed);
    destruct (bcast2_same _ _ _ Rplus z0 (amap (Rmult eps0) d) k 1 Sz Sd) as (t & Et & St & Vt); rewrite Et; unfold mbind, mlift; rewrite (npdot2 A t p k 1 SA St);
    destruct (bcast2_same _ _ _ Rleb (mk2 p 1 (fun i j => sumf k (fun l => A.[i, l] * t.[l, j]))) b p 1 eq_refl Sb) as (le & El & Sl & Vl); rewrite El.
  - eexists; eexists; reflexivity.
  - destruct (any2 le); [apply IH|eexists; eexists; reflexivity].
Qed.

(** y = 0: the box is [-1, 1], the draws 1/2 give its centre, and rejection
    returns it; hit and run with the directions 10^7 is blocked 49 times and
    repeats the start *)
Example C99_case :
  (exists Z w', rejection_sampling_z backend_ref (Z.of_nat 1) (vec_of [0]) I21 I22 w99 = (Ok (Some Z), w') /\ shape Z = [1%nat; 1%nat] /\ Z.[0%nat, 0%nat] = 0) /\
  (exists Z w' z0, hit_and_run_z backend_ref (Z.of_nat 2) (vec_of [0]) I21 I22 w99 = (Ok Z, w') /\ chebyshev_start backend_ref (vec_of [0]) I21 I22 w99 = (Ok z0, w99) /\
     shape Z = [2%nat; 1%nat] /\ Z.[0%nat, 0%nat] = z0.[0%nat, 0%nat] /\ Z.[1%nat, 0%nat] = z0.[0%nat, 0%nat]) /\
  (* one inactive variable: from 0 along the direction 3 with u = 1/4 the walk goes to -1/2 *)
  chord_step (mat_of [[1]]) 1 1 (fun _ => 0) (mk2 1 1 (fun _ _ => 0)) (fun _ => 3) (1 / 4) (mk2 1 1 (fun _ _ => - (1 / 2))).
Proof.
  assert (HG : gurobi_ok (gurobi backend_ref)) by (intros P l H; discriminate).
  assert (IN : inpoly I22 2 (2 - 1) (shift I21 (vec_of [0]) 1) (fun _ => 0)) by (apply insideI; lra).
  split; [|split].
  - destruct (C99_rejection_returns gen99 unit unit backend_ref _ 2 1 1 I2 I21 I22 (vec_of [0]) w99 frameI eq_refl eq_refl linprog_ref_ok linprog_ref_succeeds (ex_intro _ _ IN)) as (o & w' & E).
    destruct (C99_rejection backend_ref 2 1 (Z.of_nat 1) (vec_of [0]) I21 I22 w99 w' o eq_refl eq_refl eq_refl linprog_ref_ok HG E) as (Nn & lo & hi & idx & EN & _ & TB & EW & SS & KI & KO).
    assert (Nn = 1%nat) by lia. subst Nn. change (2 - 1)%nat with 1%nat in *. destruct (TB 0%nat ltac:(lia)) as (T1 & (zl & Il & El) & (zh & Ih & Eh)).
    assert (B1 := T1 (fun _ => -1) ltac:(apply insideI; lra)). assert (B2 := T1 (fun _ => 1) ltac:(apply insideI; lra)). apply insideI in Il. apply insideI in Ih. cbv beta in B1, B2.
    assert (LO : lo 0%nat = -1) by lra. assert (HI : hi 0%nat = 1) by lra.
    assert (UN : forall st c, unif_at (G := gen99) st c = 1 / 2) by reflexivity.
    assert (CA : forall r, inpoly I22 2 1 (shift I21 (vec_of [0]) 1) (fun j => lo j + (hi j - lo j) * unif_at (rng w99) (r * 1 + j))) by (intros r; apply insideI; rewrite LO, HI, UN; lra).
    assert (I0 : In 0%nat idx) by (apply KI; split; [lia|apply CA]). assert (LI : (1 <= List.length idx)%nat) by (destruct idx; [destruct I0|simpl; lia]).
    destruct o as [Z|]; [|exfalso; lia]. exists Z, w'. split; auto. destruct KO as (_ & SZ & VZ). split; auto. rewrite VZ by lia. rewrite LO, HI, UN. lra.
  - destruct (C28_start_found gen99 unit unit backend_ref 2 1 (vec_of [0]) I21 I22 w99 ltac:(lia) eq_refl eq_refl eq_refl eq_refl linprog_ref_ok linprog_ref_succeeds (ex_intro _ _ IN)
      ltac:(exists 1%nat, 0%nat; split; [lia|]; split; [lia|]; simpl; lra)) as (z0 & EC).
    destruct (C28_start_is_chebyshev_centre gen99 unit unit backend_ref 2 1 (vec_of [0]) I21 I22 w99 w99 z0 ltac:(lia) eq_refl eq_refl eq_refl linprog_ref_ok HG (ex_intro _ _ IN) EC) as (_ & Sz & IP & _).
    apply insideI in IP. change (2 - 1)%nat with 1%nat in Sz.
    assert (RUN : exists Z w', hit_and_run_z backend_ref (Z.of_nat 2) (vec_of [0]) I21 I22 w99 = (Ok Z, w')).
    { unfold hit_and_run_z. rewrite (nb _ _ w99 (2%nat, 1%nat) w99 eq_refl). cbv beta iota zeta. rewrite (nb _ _ w99 z0 w99 EC).
      destruct (shift_of_ok I21 (vec_of [0]) 2 1 eq_refl eq_refl) as (sv & Es & Ss & Vs). rewrite Es. rewrite (nb (mlift (Ok sv)) _ w99 sv w99 eq_refl).
      destruct (polytope_pair I22 sv 2 1 eq_refl Ss) as (A & b & Ep & SA & Sb & Vp). rewrite Ep. rewrite (nb (mlift (Ok (A, b))) _ w99 (A, b) w99 eq_refl). cbv beta iota.
      rewrite (nb _ _ w99 2%nat w99 eq_refl). change (2 - 1)%nat with 1%nat. cbn [hr_walk].
      destruct (pick_dir_total gen99 unit unit A b z0 4 1 SA Sb Sz 49 w99) as (od & w' & EP).
      assert (PO : pair_of I22 2 1 (shift I21 (vec_of [0]) 1) A b).
      { split; [exact SA|]. split; [exact Sb|]. intros z q Hq. rewrite Vp by auto. unfold slack, shift. destruct (Nat.ltb_spec q 2); rewrite Vs by lia; reflexivity. }
      assert (K := pick_dir_spec I22 2 1 _ A b z0 PO Sz 49 w99 w' od EP). destruct od as [d|].
      - exfalso. destruct K as (_ & c & _ & _ & NB & _). apply NB. exists 3%nat. split; [lia|]. unfold slack, along, dir_at, shift. change (Nat.ltb 3 2) with false. cbv iota. change (3 - 2)%nat with 1%nat.
        assert (NV : forall q, normal_at (G := gen99) (rng w99) q = 10 ^ 7) by reflexivity.
        cbn [sumf]. rewrite NV. change (I22.[1%nat, 0%nat]) with 1. change (I21.[1%nat, 0%nat]) with 0. lra.
      - unfold mbind. rewrite EP. unfold mret. eexists; eexists; reflexivity. }
    destruct RUN as (Z & w' & E). exists Z, w', z0. split; auto. split; auto.
    destruct (C99_hit_and_run gen99 unit unit backend_ref 2 1 (Z.of_nat 2) (vec_of [0]) I21 I22 w99 w' Z ltac:(lia) eq_refl eq_refl eq_refl linprog_ref_ok HG E) as (Nn & _ & _ & EN & _ & _ & _ & _ & _ & SZ & _).
    apply Nat2Z.inj in EN. subst Nn. split; [exact SZ|].
    assert (SQ : sqrt (/ 2 ^ 52) < 1). { rewrite <- sqrt_1. apply sqrt_lt_1; lra. }
    destruct (C99_zero_row gen99 unit unit backend_ref 2 1 (Z.of_nat 2) (vec_of [0]) I21 I22 w99 w' Z 0 ltac:(lia) eq_refl eq_refl eq_refl linprog_ref_ok HG ltac:(lia)
      ltac:(intros j Hj; assert (j = 0%nat) by lia; subst j; reflexivity) ltac:(unfold shift; cbn [sumf]; change ((vec_of [0]).[0%nat]) with 0; lra) E) as (z0' & EC' & V).
    rewrite EC in EC'. injection EC' as <-. split; apply V; simpl; lia.
  - assert (SQ : sqrt (/ 2 ^ 52) < 1). { rewrite <- sqrt_1. apply sqrt_lt_1; lra. }
    assert (SL : forall z r, (r < 2)%nat -> slack (mat_of [[1]]) 1 1 (fun _ => 0) z r = if Nat.eqb r 0 then 1 + z 0%nat else 1 - z 0%nat).
    { intros z r Hr. destruct r as [|[|r]]; try lia; unfold slack; cbn; ring. }
    split.
    + intros r [Hr _]. rewrite !SL by lia. unfold along. rewrite at_mk2. destruct (Nat.eqb r 0); lra.
    + exists (- (1 / 3)), (1 / 3). split; [lra|]. split; [|split; [reflexivity|]].
      * intros t. split.
        -- intros H. assert (H0 := H 0%nat). assert (H1 := H 1%nat). unfold seen in H0, H1. rewrite !SL in H0, H1 by lia. unfold along in H0, H1. rewrite at_mk2 in H0, H1. simpl Nat.eqb in H0, H1. cbv iota in H0, H1.
           specialize (H0 ltac:(split; [lia|lra])). specialize (H1 ltac:(split; [lia|lra])). lra.
        -- intros H r [Hr _]. rewrite SL by lia. unfold along. rewrite at_mk2. destruct (Nat.eqb r 0); lra.
      * intros j Hj. rewrite at_mk2. unfold along. rewrite at_mk2. lra.
Qed.
