(** Evaluating the notebooks. *)
From Coq Require Import String Reals Lra Lia List Arith ZArith Bool.
From Verif Require Import Prelude Py NumArr M_Misc P_Misc M_QP M_Subspaces M_Domains P_Domains M_Plotters P_Plotters M_Tutorials P_Tutorials M_Notebooks.
Import ListNotations.
Open Scope R_scope.

(** ** The random streams *)
Section Stream.
  Context (G : gen).
  (** the generator's state after k uniform (normal) draws, and the k-th draw *)
  Fixpoint unif_state (k : nat) (s : gst G) : gst G := match k with O => s | S k => unif_state k (snd (g_unif G s)) end.
  Definition unif_at (s : gst G) (k : nat) : R := fst (g_unif G (unif_state k s)).
  Fixpoint normal_state (k : nat) (s : gst G) : gst G := match k with O => s | S k => normal_state k (snd (g_normal G s)) end.
  Definition normal_at (s : gst G) (k : nat) : R := fst (g_normal G (normal_state k s)).

  Lemma unif_state_add : forall a b s, unif_state (a + b) s = unif_state b (unif_state a s).
  Proof. induction a as [|a IH]; intros b s; [reflexivity|]. exact (IH b (snd (g_unif G s))). Qed.
  Lemma normal_state_add : forall a b s, normal_state (a + b) s = normal_state b (normal_state a s).
  Proof. induction a as [|a IH]; intros b s; [reflexivity|]. exact (IH b (snd (g_normal G s))). Qed.
  Lemma unif_at_add : forall a k s, unif_at (unif_state a s) k = unif_at s (a + k).
  Proof. intros. unfold unif_at. now rewrite unif_state_add. Qed.
  Lemma normal_at_add : forall a k s, normal_at (normal_state a s) k = normal_at s (a + k).
  Proof. intros. unfold normal_at. now rewrite normal_state_add. Qed.
  Lemma unif_at_range : forall s k, 0 <= unif_at s k < 1.
  Proof. intros. apply g_unif_spec. Qed.

  Context {U L : Type}.
  Lemma repeat_unif : forall lo hi n (w : world G U L),
    repeatM n (draw_uniform lo hi) w =
      (Ok (map (fun k => lo + (hi - lo) * unif_at (rng w) k) (seq 0 n)), set_rng w (unif_state n (rng w))).
  Proof.
    intros lo hi. induction n as [|n IH]; intros w.
    - destruct w; reflexivity.
    - cbn [repeatM]. unfold mbind at 1, draw_uniform at 1. destruct (g_unif G (rng w)) as [x s] eqn:E.
      unfold mbind. rewrite IH. cbn [set_rng rng usr calls files mret]. unfold mret.
      assert (E1 : unif_state (S n) (rng w) = unif_state n s) by (cbn [unif_state]; now rewrite E).
      rewrite E1. f_equal. f_equal. cbn [seq map]. f_equal.
      + unfold unif_at. cbn [unif_state]. now rewrite E.
      + rewrite <- seq_shift, map_map. apply map_ext. intros k. unfold unif_at. cbn [unif_state]. now rewrite E.
  Qed.
  Lemma repeat_normal : forall n (w : world G U L),
    repeatM n draw_normal w = (Ok (map (normal_at (rng w)) (seq 0 n)), set_rng w (normal_state n (rng w))).
  Proof.
    induction n as [|n IH]; intros w.
    - destruct w; reflexivity.
    - cbn [repeatM]. unfold mbind at 1, draw_normal at 1. destruct (g_normal G (rng w)) as [x s] eqn:E.
      unfold mbind. rewrite IH. cbn [set_rng rng usr calls files mret]. unfold mret.
      assert (E1 : normal_state (S n) (rng w) = normal_state n s) by (cbn [normal_state]; now rewrite E).
      rewrite E1. f_equal. f_equal. cbn [seq map]. f_equal.
      + unfold normal_at. cbn [normal_state]. now rewrite E.
      + rewrite <- seq_shift, map_map. apply map_ext. intros k. unfold normal_at. cbn [normal_state]. now rewrite E.
  Qed.
  Lemma nth_map_seq0 : forall (f : nat -> R) n k d, (k < n)%nat -> nth k (map f (seq 0 n)) d = f k.
  Proof.
    intros f n k d H. rewrite (nth_indep _ d (f 0%nat)) by (rewrite map_length, seq_length; auto).
    rewrite map_nth, seq_nth by auto. reflexivity.
  Qed.
  Lemma uniform2_ev : forall lo hi r c (w : world G U L), exists X,
    uniform2 lo hi r c w = (Ok X, set_rng w (unif_state (r * c) (rng w))) /\ shape X = [r; c] /\
    forall i j, (i < r)%nat -> (j < c)%nat -> X.[i, j] = lo + (hi - lo) * unif_at (rng w) (i * c + j).
  Proof.
    intros lo hi r c w. unfold uniform2, mbind. rewrite repeat_unif. eexists. split; [reflexivity|]. split; [reflexivity|].
    intros i j Hi Hj. rewrite at_mk2 by auto.
    rewrite (nth_map_seq0 (fun k => lo + (hi - lo) * unif_at (rng w) k)) by nia. reflexivity.
  Qed.
  Lemma normal2_ev : forall r c (w : world G U L), exists X,
    normal2 r c w = (Ok X, set_rng w (normal_state (r * c) (rng w))) /\ shape X = [r; c] /\
    forall i j, (i < r)%nat -> (j < c)%nat -> X.[i, j] = normal_at (rng w) (i * c + j).
  Proof.
    intros r c w. unfold normal2, mbind. rewrite repeat_normal. eexists. split; [reflexivity|]. split; [reflexivity|].
    intros i j Hi Hj. rewrite at_mk2 by auto. rewrite (nth_map_seq0 (normal_at (rng w))) by nia. reflexivity.
  Qed.
End Stream.
Arguments unif_state {G}. Arguments unif_at {G}. Arguments normal_state {G}. Arguments normal_at {G}.

Lemma nb : forall {W A B} (m : M W A) (k : A -> M W B) w a w', m w = (Ok a, w') -> mbind m k w = k a w'.
Proof. intros W A B m k w a w' H. unfold mbind. rewrite H. reflexivity. Qed.

(** ** np.hstack of columns *)
Lemma hstack2 : forall (X Y : nd R) r c1 c2, shape X = [r; c1] -> shape Y = [r; c2] -> exists Z, hstack X Y = Ok Z /\ shape Z = [r; (c1 + c2)%nat] /\
  forall i j, Z.[i, j] = if Nat.ltb j c1 then X.[i, j] else Y.[i, (j - c1)%nat].
Proof. intros X Y r c1 c2 HX HY. unfold hstack. rewrite HX, HY, Nat.eqb_refl. eexists. split; [reflexivity|]. split; reflexivity. Qed.
Lemma hstack_cols_acc : forall N (cs : list (nd R)) (X : nd R) a, shape X = [N; a] -> (forall c, In c cs -> shape c = [N; 1%nat]) ->
  exists Z, fold_left (fun acc b => do x <- acc; hstack x b) cs (Ok X) = Ok Z /\ shape Z = [N; (a + List.length cs)%nat] /\
    forall i j, Z.[i, j] = if Nat.ltb j a then X.[i, j] else if Nat.ltb j (a + List.length cs) then (nth (j - a) cs X).[i, 0%nat] else Z.[i, j].
Proof.
  intros N. induction cs as [|c cs IH]; intros X a HX Hc.
  - exists X. split; [reflexivity|]. split; [rewrite HX; simpl; now rewrite Nat.add_0_r|]. intros i j. simpl. rewrite Nat.add_0_r.
    destruct (Nat.ltb j a); reflexivity.
  - destruct (hstack2 X c N a 1 HX (Hc c (or_introl eq_refl))) as (Y & Y1 & Y2 & Y3).
    destruct (IH Y (a + 1)%nat Y2 (fun d H => Hc d (or_intror H))) as (Z & Z1 & Z2 & Z3).
    exists Z. cbn [fold_left rbind]. rewrite Y1. split; [exact Z1|]. split; [rewrite Z2; simpl; f_equal; f_equal; lia|].
    intros i j. rewrite Z3 at 1. rewrite Y3. cbn [List.length].
    destruct (Nat.ltb_spec j a) as [H|H].
    + destruct (Nat.ltb_spec j (a + 1)); [reflexivity|lia].
    + destruct (Nat.ltb_spec j (a + 1)).
      * destruct (Nat.ltb_spec j (a + S (List.length cs))); [|lia]. replace (j - a)%nat with 0%nat by lia. reflexivity.
      * replace (a + 1 + List.length cs)%nat with (a + S (List.length cs))%nat by lia.
        destruct (Nat.ltb_spec j (a + S (List.length cs))); [|reflexivity].
        replace (j - a)%nat with (S (j - (a + 1)))%nat by lia. cbn [nth]. f_equal. apply nth_indep. lia.
Qed.
Lemma hstack_all_cols : forall N cs d, cs <> [] -> (forall c, In c cs -> shape c = [N; 1%nat]) ->
  exists Z, hstack_all cs = Ok Z /\ shape Z = [N; List.length cs] /\
    forall i j, (j < List.length cs)%nat -> Z.[i, j] = (nth j cs d).[i, 0%nat].
Proof.
  intros N [|c cs] d Hn Hc; [contradiction|].
  destruct (hstack_cols_acc N cs c 1 (Hc c (or_introl eq_refl)) (fun x H => Hc x (or_intror H))) as (Z & Z1 & Z2 & Z3).
  exists Z. split; [exact Z1|]. split; [exact Z2|]. intros i j Hj. cbn [List.length] in Hj. rewrite Z3.
  destruct (Nat.ltb_spec j 1).
  - replace j with 0%nat by lia. reflexivity.
  - destruct (Nat.ltb_spec j (1 + List.length cs)); [|lia]. destruct j as [|j]; [lia|]. cbn [nth]. replace (S j - 1)%nat with j by lia.
    f_equal. apply nth_indep. lia.
Qed.

(** ** Normalization *)
Lemma norm_ok : forall box X N, shape X = [N; List.length box] ->
  (forall j, (j < List.length box)%nat -> fst (nth j box (0, 1)) < snd (nth j box (0, 1))) ->
  exists Y, norm (map fst box) (map snd box) X = Ok Y /\ shape Y = [N; List.length box] /\
  forall i j, (i < N)%nat -> (j < List.length box)%nat ->
    Y.[i, j] = 2 * (X.[i, j] - fst (nth j box (0, 1))) / (snd (nth j box (0, 1)) - fst (nth j box (0, 1))) - 1.
Proof.
  intros box X N HX Hb. unfold norm, np_array.
  set (lb := mk1 (List.length (map fst box)) (fun i => nth i (map fst box) 0)). set (ub := mk1 (List.length (map snd box)) (fun i => nth i (map snd box) 0)).
  assert (SL : size lb = List.length box) by (unfold lb, size; simpl; rewrite map_length; lia).
  assert (SU : size ub = List.length box) by (unfold ub, size; simpl; rewrite map_length; lia).
  destruct (bounded_init_ok lb ub ltac:(congruence)) as (s & E & S1 & S2 & S3). rewrite E. cbn [rbind]. rewrite SL in *.
  destruct (bounded_normalize_ok s _ _ _ S1 S2 (fun j H => proj1 (S3 j H)) (fun j H => proj2 (S3 j H)) (amap Fin X) N HX)
    as (Y & Y1 & Y2 & Y3).
  rewrite Y1. cbn [rbind]. eexists. split; [reflexivity |]. split; [exact Y2 |]. intros i j Hi Hj.
  change ((amap fin_of Y).[i, j]) with (fin_of (Y.[i, j])). rewrite Y3 by auto.
  assert (FL : flat lb j = fst (nth j box (0, 1))).
  { unfold lb, flat; cbn [shape mk1 unravel prodn]; rewrite Nat.div_1_r. change ((mk1 (List.length (map fst box)) (fun i => nth i (map fst box) 0)).[j]) with (nth j (map fst box) 0).
    rewrite (nth_indep _ 0 (fst (0, 1))) by (now rewrite map_length). apply map_nth. }
  assert (FU : flat ub j = snd (nth j box (0, 1))).
  { unfold ub, flat; cbn [shape mk1 unravel prodn]; rewrite Nat.div_1_r. change ((mk1 (List.length (map snd box)) (fun i => nth i (map snd box) 0)).[j]) with (nth j (map snd box) 0).
    rewrite (nth_indep _ 0 (snd (0, 1))) by (now rewrite map_length). apply map_nth. }
  rewrite FL, FU. unfold amap; simpl at_. specialize (Hb j Hj). unfold xsub. cbn [xadd xneg xmul]. rewrite xdiv_fin by lra. cbn [xadd fin_of]. field. lra.
Qed.
