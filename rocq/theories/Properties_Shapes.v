(** C83: arrays whose shapes do not fit are refused; arrays with one column are
    not, because NumPy stretches them. *)
From Coq Require Import String Reals Lra Lia List Arith ZArith Bool.
From Verif Require Import Prelude Py NumArr Toy M_Misc P_Misc M_QP M_Subspaces M_Domains M_Designs M_Plotters M_Tutorials Properties_Tutorials.
Import ListNotations.
Open Scope R_scope.

(** ** The broadcasting rule of NumPy, any ranks *)
(** the k-th dimension counted from the right; missing dimensions are 1 *)
Definition rdim (s : list nat) (k : nat) : nat := nth k (rev s) 1%nat.
Definition fits (s t : list nat) : Prop := forall k, rdim s k = rdim t k \/ rdim s k = 1%nat \/ rdim t k = 1%nat.
Definition stretched (s t : list nat) (k : nat) : nat := if Nat.eqb (rdim s k) 1 then rdim t k else rdim s k.
(** the entry of X that meets index ix of the result *)
Definition source (s ix jx : list nat) : Prop :=
  List.length jx = List.length s /\
  forall a, (a < List.length s)%nat ->
    nth a jx 0%nat = if Nat.eqb (nth a s 0%nat) 1 then 0%nat else nth (a + (List.length ix - List.length s)) ix 0%nat.

Lemma bshape_ok : forall a b, (forall k, nth k a 1%nat = nth k b 1%nat \/ nth k a 1%nat = 1%nat \/ nth k b 1%nat = 1%nat) ->
  exists s, bshape a b = Some s /\ List.length s = Nat.max (List.length a) (List.length b) /\
    forall k, nth k s 1%nat = if Nat.eqb (nth k a 1%nat) 1 then nth k b 1%nat else nth k a 1%nat.
Proof.
  induction a as [|x a IH]; intros b H.
  - exists b. split; [reflexivity|]. split; [reflexivity|]. intros k. destruct k; reflexivity.
  - destruct b as [|y b].
    + exists (x :: a). split; [reflexivity|]. split; [simpl; lia|]. intros k.
      replace (nth k [] 1%nat) with 1%nat by (destruct k; reflexivity).
      destruct (Nat.eqb_spec (nth k (x :: a) 1%nat) 1); auto.
    + destruct (IH b (fun k => H (S k))) as (s & Es & Ls & Ns). assert (H0 := H 0%nat). simpl in H0.
      assert (Eb : bdim x y = Some (if Nat.eqb x 1 then y else x)).
      { unfold bdim. destruct (Nat.eqb_spec x y) as [->|]; [destruct (Nat.eqb_spec y 1); congruence|].
        destruct (Nat.eqb_spec x 1); auto. destruct (Nat.eqb_spec y 1); [auto|lia]. }
      simpl. rewrite Eb, Es. eexists. split; [reflexivity|]. split; [simpl; lia|].
      intros [|k]; [reflexivity|apply Ns].
Qed.
Lemma bshape_none : forall a b, ~ (forall k, nth k a 1%nat = nth k b 1%nat \/ nth k a 1%nat = 1%nat \/ nth k b 1%nat = 1%nat) -> bshape a b = None.
Proof.
  induction a as [|x a IH]; intros b H.
  - exfalso. apply H. intros k. destruct k; auto.
  - destruct b as [|y b]; [exfalso; apply H; intros k; destruct k; auto|].
    simpl. destruct (bdim x y) eqn:E; auto. rewrite IH; auto. intros K. apply H. intros [|k]; [|apply K]. simpl.
    unfold bdim in E. destruct (Nat.eqb_spec x y); auto. destruct (Nat.eqb_spec x 1); auto. destruct (Nat.eqb_spec y 1); auto. discriminate.
Qed.
Lemma bixs_nth : forall s ix a, List.length ix = List.length s -> (a < List.length s)%nat ->
  List.length (bixs s ix) = List.length s /\ nth a (bixs s ix) 0%nat = if Nat.eqb (nth a s 0%nat) 1 then 0%nat else nth a ix 0%nat.
Proof.
  induction s as [|n s IH]; intros ix a L Ha; [simpl in Ha; lia|]. destruct ix as [|i ix]; [discriminate|].
  simpl in L. destruct a as [|a].
  - split; [|reflexivity]. simpl. f_equal. destruct s as [|n' s]; [destruct ix; auto; discriminate|]. apply (IH ix 0%nat); simpl in *; lia.
  - destruct (IH ix a ltac:(lia) ltac:(simpl in Ha; lia)) as [L' N]. simpl. auto.
Qed.
Lemma source_bget : forall A (X : nd A) ix jx, (List.length (shape X) <= List.length ix)%nat -> source (shape X) ix jx -> bget X ix = at_ X jx.
Proof.
  intros A X ix jx L [Lj H]. unfold bget. f_equal. set (off := (List.length ix - rank X)%nat).
  assert (Ls : List.length (skipn off ix) = List.length (shape X)) by (rewrite skipn_length; unfold off, rank; lia).
  assert (Lb : List.length (bixs (shape X) (skipn off ix)) = List.length (shape X)).
  { destruct (shape X) as [|n s] eqn:E; [reflexivity|]. apply (bixs_nth (n :: s) _ 0%nat Ls). simpl; lia. }
  apply (nth_ext _ _ 0%nat 0%nat); [congruence|]. rewrite Lb. intros a Ha. rewrite H by auto.
  destruct (bixs_nth (shape X) (skipn off ix) a Ls Ha) as [_ ->].
  destruct (Nat.eqb (nth a (shape X) 0%nat) 1); auto.
  fold (rank X). fold off. clearbody off. clear. revert ix. induction off as [|o IH]; intros ix; [now rewrite Nat.add_0_r|].
  destruct ix as [|i ix]; [destruct a; reflexivity|]. rewrite Nat.add_succ_r. simpl. apply IH.
Qed.

Theorem C83_broadcast : forall A B C (f : A -> B -> C) (X : nd A) (Y : nd B),
  (fits (shape X) (shape Y) ->
     exists Z, bcast f X Y = Ok Z /\ rank Z = Nat.max (rank X) (rank Y) /\
       (forall k, rdim (shape Z) k = stretched (shape X) (shape Y) k) /\
       forall ix jx kx, List.length ix = rank Z -> source (shape X) ix jx -> source (shape Y) ix kx ->
         at_ Z ix = f (at_ X jx) (at_ Y kx)) /\
  (~ fits (shape X) (shape Y) -> bcast f X Y = Err ValueError).
Proof.
  intros A B C f X Y. unfold bcast. split.
  - intros H. destruct (bshape_ok (rev (shape X)) (rev (shape Y)) H) as (s & Es & Ls & Ns). rewrite Es.
    eexists. split; [reflexivity|]. unfold rank. cbn [shape at_]. rewrite !rev_length in *. split; [exact Ls|]. split.
    + intros k. unfold rdim at 1. cbn [shape]. rewrite rev_involutive. apply Ns.
    + intros ix jx kx Li S1 S2. f_equal; apply source_bget; auto; lia.
  - intros H. rewrite bshape_none; auto.
Qed.
Print Assumptions C83_broadcast.

(** the two-dimensional operation is the same rule *)
Theorem C83_broadcast_2d : forall A B C (f : A -> B -> C) (X : nd A) (Y : nd B), rank X = 2%nat -> rank Y = 2%nat ->
  match bcast2 f X Y, bcast f X Y with
  | Ok Z, Ok Z' => Z === Z'
  | Err e, Err e' => e = ValueError /\ e' = ValueError
  | _, _ => False
  end.
Proof.
  intros A B C f X Y HX HY. unfold rank in *. unfold bcast2, bcast.
  destruct (shape X) as [|r1 [|c1 [|]]] eqn:SX; try discriminate. destruct (shape Y) as [|r2 [|c2 [|]]] eqn:SY; try discriminate.
  cbn [rev app bshape]. destruct (bdim r1 r2) as [r|]; destruct (bdim c1 c2) as [c|]; auto.
  apply (eqnd2 _ r c); [reflexivity|reflexivity|]. intros i j Hi Hj. unfold mk2. cbn [at_ nth]. unfold bget, rank. rewrite SX, SY. reflexivity.
Qed.
Print Assumptions C83_broadcast_2d.

(** np.dot of vectors and matrices: defined exactly when the inner dimensions agree *)
Definition outer_dims (s : list nat) : list nat := match s with [r; c] => [r] | _ => [] end.
Definition outer_dims' (s : list nat) : list nat := match s with [r; c] => [c] | _ => [] end.
Definition inner_dim (s : list nat) : nat := last s 0%nat.
Definition inner_dim' (s : list nat) : nat := hd 0%nat s.
Theorem C83_dot : forall X Y : nd R, (1 <= rank X <= 2)%nat -> (1 <= rank Y <= 2)%nat ->
  (inner_dim (shape X) = inner_dim' (shape Y) ->
     exists Z, npdot X Y = Ok Z /\ shape Z = outer_dims (shape X) ++ outer_dims' (shape Y) /\
       forall ix jx, List.length ix = (rank X - 1)%nat -> List.length jx = (rank Y - 1)%nat ->
         at_ Z (ix ++ jx) = sumf (inner_dim (shape X)) (fun l => at_ X (ix ++ [l]) * at_ Y (l :: jx))) /\
  (inner_dim (shape X) <> inner_dim' (shape Y) -> npdot X Y = Err ValueError).
Proof.
  intros X Y HX HY. unfold rank in *. unfold npdot, mdot.
  assert (L0 : forall l : list nat, List.length l = 0%nat -> l = []) by (intros [|]; [auto|discriminate]).
  assert (L1 : forall l : list nat, List.length l = 1%nat -> exists i, l = [i]) by (intros [|i [|]]; try discriminate; eauto).
  destruct (shape X) as [|r1 [|c1 [|]]] eqn:SX; simpl in HX; try lia; destruct (shape Y) as [|r2 [|c2 [|]]] eqn:SY; simpl in HY; try lia;
    unfold inner_dim, inner_dim'; cbn [last hd outer_dims outer_dims' List.length app Nat.sub];
    (split; [intros E; rewrite <- E, Nat.eqb_refl; eexists; split; [reflexivity|]; split; [reflexivity|]; intros ix jx Hi Hj
            |intros E; rewrite (proj2 (Nat.eqb_neq _ _) E); reflexivity]).
  - rewrite (L0 ix Hi), (L0 jx Hj). reflexivity.
  - rewrite (L0 ix Hi). destruct (L1 jx Hj) as (j & ->). reflexivity.
  - rewrite (L0 jx Hj). destruct (L1 ix Hi) as (i & ->). reflexivity.
  - destruct (L1 jx Hj) as (j & ->). destruct (L1 ix Hi) as (i & ->). reflexivity.
Qed.
Print Assumptions C83_dot.

(** ** Training data *)
Theorem C83_training_data : forall (X f : nd R) M m, shape X = [M; m] -> rank f <> 2%nat ->
  process_inputs_outputs X f = Err ValueError.
Proof.
  intros X f M m HX Hf. unfold process_inputs_outputs. rewrite (process_inputs_eq _ X M m HX). cbn [rbind].
  unfold rank in Hf. destruct (shape f) as [|a [|b [|c t]]]; auto. simpl in Hf; lia.
Qed.
Print Assumptions C83_training_data.

(** ** The normalizers and the test functions *)
Lemma bdim_neq : forall a b, a <> b -> a <> 1%nat -> b <> 1%nat -> bdim a b = None.
Proof. intros. unfold bdim. destruct (Nat.eqb_spec a b); [lia|]. destruct (Nat.eqb_spec a 1); [lia|]. destruct (Nat.eqb_spec b 1); [lia|auto]. Qed.
Lemma bdim_1r : forall a, bdim a 1 = Some a.
Proof. intros. unfold bdim. destruct (Nat.eqb_spec a 1); auto. Qed.
Lemma bdim_1l : forall a, bdim 1 a = Some a.
Proof. intros. unfold bdim. destruct (Nat.eqb_spec 1 a); auto. Qed.
Lemma bdim_same : forall a, bdim a a = Some a.
Proof. intros. unfold bdim. now rewrite Nat.eqb_refl. Qed.

Theorem C83_normalizer_refuses : forall (s : BoundedNormalizer) m (X : nd xr) M c,
  shape (bn_lb s) = [1%nat; m] -> shape (bn_ub s) = [1%nat; m] -> shape X = [M; c] ->
  c <> m -> c <> 1%nat -> m <> 1%nat ->
  bounded_normalize s X = Err ValueError /\ bounded_unnormalize s X = Err ValueError.
Proof.
  intros s m X M c HL HU HX H1 H2 H3. unfold bounded_normalize, bounded_unnormalize. rewrite (process_inputs_eq _ X M c HX). cbn [rbind].
  split.
  - unfold bcast2 at 1. rewrite HX, HL, (bdim_neq c m) by auto. destruct (bdim M 1); reflexivity.
  - unfold bcast2 at 1. rewrite HU, HL, !bdim_same. cbn [rbind]. unfold bcast2 at 1. cbn [shape mk2 amap]. rewrite HX, (bdim_neq m c) by auto.
    destruct (bdim 1 M); reflexivity.
Qed.
Print Assumptions C83_normalizer_refuses.

Section BN1.
  Variables (s : BoundedNormalizer) (m : nat) (lb ub : nat -> R).
  Hypothesis Hlb : shape (bn_lb s) = [1%nat; m].
  Hypothesis Hub : shape (bn_ub s) = [1%nat; m].
  Hypothesis Elb : forall j, (j < m)%nat -> (bn_lb s).[0%nat, j] = Fin (lb j).
  Hypothesis Eub : forall j, (j < m)%nat -> (bn_ub s).[0%nat, j] = Fin (ub j).
  Lemma bidx_lt : forall n i, (i < n)%nat -> bidx n i = i.
  Proof. intros. unfold bidx. destruct (Nat.eqb_spec n 1); lia. Qed.
  (** a one-column matrix is treated as m equal columns *)
  Lemma unnormalize_col : forall (X : nd xr) M, shape X = [M; 1%nat] ->
    exists Y, bounded_unnormalize s X = Ok Y /\ shape Y = [M; m] /\
    forall i j, (i < M)%nat -> (j < m)%nat ->
      Y.[i, j] = xadd (xdiv (xmul (Fin (ub j - lb j)) (xadd (X.[i, 0%nat]) (Fin 1))) (Fin 2)) (Fin (lb j)).
  Proof.
    intros X M HX. unfold bounded_unnormalize. rewrite (process_inputs_eq _ X M 1 HX). cbn [rbind].
    unfold bcast2 at 1. rewrite Hub, Hlb, !bdim_same. cbn [rbind]. unfold bcast2 at 1. cbn [shape mk2 amap]. rewrite HX, bdim_1l, bdim_1r. cbn [rbind].
    unfold bcast2. cbn [shape mk2 amap]. rewrite Hlb, bdim_1r, bdim_same. eexists. split; [reflexivity|]. split; [reflexivity|].
    intros i j Hi Hj. unfold mk2. cbn [at_ nth amap]. repeat rewrite (bidx_lt m j Hj). repeat rewrite (bidx_lt M i Hi). repeat rewrite (bidx_lt m j Hj). unfold bidx. cbn [Nat.eqb].
    rewrite Elb, Eub by auto. reflexivity.
  Qed.
End BN1.

Lemma unnorm_col : forall xl xu X M, List.length xu = List.length xl -> shape X = [M; 1%nat] ->
  exists Y, unnorm xl xu X = Ok Y /\ shape Y = [M; List.length xl] /\
  forall i j, (i < M)%nat -> (j < List.length xl)%nat ->
    Y.[i, j] = (nth j xu 0 - nth j xl 0) * (X.[i, 0%nat] + 1) / 2 + nth j xl 0.
Proof.
  intros xl xu X M HL HX. unfold unnorm, np_array.
  set (lb := mk1 (List.length xl) (fun i => nth i xl 0)). set (ub := mk1 (List.length xu) (fun i => nth i xu 0)).
  assert (SL : size lb = List.length xl) by (unfold lb, size; simpl; lia).
  assert (SU : size ub = List.length xu) by (unfold ub, size; simpl; lia).
  destruct (bounded_init_ok lb ub ltac:(congruence)) as (s & E & S1 & S2 & S3). rewrite E. cbn [rbind].
  rewrite SL in *.
  destruct (unnormalize_col s _ _ _ S1 S2 (fun j H => proj1 (S3 j H)) (fun j H => proj2 (S3 j H)) (amap Fin X) M HX)
    as (Y & Y1 & Y2 & Y3).
  rewrite Y1. cbn [rbind]. eexists. split; [reflexivity |]. split; [exact Y2 |]. intros i j Hi Hj.
  change ((amap fin_of Y).[i, j]) with (fin_of (Y.[i, j])). rewrite Y3 by auto.
  assert (FL : flat lb j = nth j xl 0) by (unfold lb, flat; cbn [shape mk1 unravel prodn]; rewrite Nat.div_1_r; reflexivity).
  assert (FU : flat ub j = nth j xu 0) by (unfold ub, flat; cbn [shape mk1 unravel prodn]; rewrite Nat.div_1_r; reflexivity).
  rewrite FL, FU. unfold amap; simpl at_. cbn [xadd xmul]. rewrite xdiv_fin by lra. cbn [xadd fin_of]. lra.
Qed.
Lemma unnorm_bad : forall xl xu X M c, List.length xu = List.length xl -> shape X = [M; c] ->
  c <> List.length xl -> c <> 1%nat -> List.length xl <> 1%nat -> unnorm xl xu X = Err ValueError.
Proof.
  intros xl xu X M c HL HX H1 H2 H3. unfold unnorm, np_array.
  set (lb := mk1 (List.length xl) (fun i => nth i xl 0)). set (ub := mk1 (List.length xu) (fun i => nth i xu 0)).
  assert (SL : size lb = List.length xl) by (unfold lb, size; simpl; lia).
  assert (SU : size ub = List.length xu) by (unfold ub, size; simpl; lia).
  destruct (bounded_init_ok lb ub ltac:(congruence)) as (s & E & S1 & S2 & S3). rewrite E. cbn [rbind].
  rewrite SL in *. destruct (C83_normalizer_refuses s _ (amap Fin X) M c S1 S2 HX H1 H2 H3) as [_ ->]. reflexivity.
Qed.

(** the functions of the test problems that take k normalized inputs *)
Definition normalized_functions : list ((nd R -> res (nd R)) * nat) :=
  [(circuit, 6%nat); (circuit_grad, 6%nat); (piston, 7%nat); (piston_grad, 7%nat); (wing, 10%nat); (wing_grad, 10%nat);
   (robot, 8%nat); (robot_grad, 8%nat)].

Theorem C83_test_functions_partial :
  (forall h k, In (h, k) normalized_functions -> forall X M c, shape X = [M; c] -> c <> k -> c <> 1%nat -> h X = Err ValueError) /\
  (forall X M c, shape X = [M; c] -> c <> 8%nat -> borehole X = Err ValueError /\ borehole_grad X = Err ValueError) /\
  (forall X M c, shape X = [M; c] -> (c < 10)%nat -> tut_wing X = Err IndexError /\ tut_wing_grad X = Err IndexError).
Proof.
  split; [|split].
  - assert (G : forall xl xu (post : nd R -> res (nd R)) X M c, List.length xu = List.length xl -> shape X = [M; c] -> c <> List.length xl -> c <> 1%nat ->
        List.length xl <> 1%nat -> rbind (unnorm xl xu (np_atleast_2d X)) post = Err ValueError).
    { intros xl xu post X M c HL HX H1 H2 H3. unfold np_atleast_2d. rewrite HX. rewrite (unnorm_bad xl xu X M c) by auto. reflexivity. }
    intros h k Hin X M c HX Hc H1. unfold normalized_functions in Hin. simpl in Hin.
    repeat match type of Hin with _ \/ _ => destruct Hin as [E|Hin] | False => destruct Hin end; injection E as <- <-;
      (eapply G; [reflexivity|exact HX|exact Hc|exact H1|discriminate]).
  - assert (G : forall X M c, shape X = [M; c] -> c <> 8%nat -> bore_inputs X = Err ValueError).
    { intros X M c HX Hc. unfold bore_inputs, np_atleast_2d. rewrite HX, HX.
      set (X2 := mk2 M (c - 2) _). destruct (Nat.eq_dec (c - 2) 1) as [E1|N1].
      - destruct (unnorm_col bore_xl bore_xu X2 M eq_refl) as (Y & -> & SY & _); [unfold X2; simpl; rewrite E1; reflexivity|].
        cbn [rbind]. rewrite (ncols_shape2 _ Y _ _ SY), E1. reflexivity.
      - rewrite (unnorm_bad bore_xl bore_xu X2 M (c - 2)); try reflexivity; try discriminate; auto. simpl. lia. }
    intros X M c HX Hc. unfold borehole, borehole_grad. rewrite (G X M c HX Hc). auto.
  - intros X M c HX Hc. unfold tut_wing, tut_wing_grad, ten_columns, np_atleast_2d. rewrite HX, HX.
    destruct (Nat.ltb_spec c 10); [auto|lia].
Qed.
Print Assumptions C83_test_functions_partial.

(** an M-by-1 array is accepted and read as k equal columns; the tutorial's
    wing accepts columns beyond the tenth *)
Theorem C83_one_column_refuted :
  (forall h k, In (h, k) normalized_functions -> forall X M, shape X = [M; 1%nat] ->
     exists F F', h X = Ok F /\ h (mk2 M k (fun i _ => X.[i, 0%nat])) = Ok F' /\ F === F') /\
  (forall X M c, shape X = [M; c] -> (10 <= c)%nat ->
     exists F F', tut_wing X = Ok F /\ tut_wing (mk2 M 10 (fun i j => X.[i, j])) = Ok F' /\ F === F') /\
  ~ (forall X M c, shape X = [M; c] -> c <> 10%nat -> is_err (wing X)) /\
  ~ (forall X M c, shape X = [M; c] -> c <> 10%nat -> is_err (tut_wing X)).
Proof.
  assert (V : forall row Y Y' M k, shape Y = [M; k] -> shape Y' = [M; k] ->
     (forall i j, (i < M)%nat -> (j < k)%nat -> Y.[i, j] = Y'.[i, j]) ->
     (forall x x', (forall j, (j < k)%nat -> x j = x' j) -> row x = row x') -> value_col row Y === value_col row Y').
  { intros row Y Y' M k S1 S2 E R. unfold value_col. rewrite (nrows_shape2 _ _ _ _ S1), (nrows_shape2 _ _ _ _ S2).
    apply (eqnd2 _ M 1); auto. intros i j Hi Hj. rewrite !at_mk2. apply R. intros; auto. }
  assert (H : forall q row Y Y' M k, shape Y = [M; k] -> shape Y' = [M; k] ->
     (forall i j, (i < M)%nat -> (j < k)%nat -> Y.[i, j] = Y'.[i, j]) ->
     (forall x x', (forall j, (j < k)%nat -> x j = x' j) -> row x = row x') -> hstack_cols q row Y === hstack_cols q row Y').
  { intros q row Y Y' M k S1 S2 E R. unfold hstack_cols. rewrite (nrows_shape2 _ _ _ _ S1), (nrows_shape2 _ _ _ _ S2).
    apply (eqnd2 _ M q); auto. intros i j Hi Hj. rewrite !at_mk2. rewrite (R _ (fun j => Y'.[i, j])); auto. }
  assert (U : forall xl xu X M, List.length xu = List.length xl -> shape X = [M; 1%nat] -> exists Y Y',
     unnorm xl xu (np_atleast_2d X) = Ok Y /\ unnorm xl xu (np_atleast_2d (mk2 M (List.length xl) (fun i _ => X.[i, 0%nat]))) = Ok Y' /\
     shape Y = [M; List.length xl] /\ shape Y' = [M; List.length xl] /\
     forall i j, (i < M)%nat -> (j < List.length xl)%nat -> Y.[i, j] = Y'.[i, j]).
  { intros xl xu X M HL HX. unfold np_atleast_2d at 1. rewrite HX. cbn [np_atleast_2d shape mk2].
    destruct (unnorm_col xl xu X M HL HX) as (Y & E1 & S1 & V1).
    destruct (unnorm_ok xl xu (mk2 M (List.length xl) (fun i _ => X.[i, 0%nat])) M HL eq_refl) as (Y' & E2 & S2 & V2).
    exists Y, Y'. repeat (split; [assumption|]). intros i j Hi Hj. rewrite V1, V2, at_mk2 by auto. reflexivity. }
  assert (Row : forall A (row : (nat -> R) -> A) k, (forall x, row x = row (fun j => if Nat.ltb j k then x j else 0)) ->
     forall x x', (forall j, (j < k)%nat -> x j = x' j) -> row x = row x').
  { intros A row k E x x' Hx. rewrite (E x), (E x'). f_equal. apply FunctionalExtensionality.functional_extensionality. intros j.
    destruct (Nat.ltb_spec j k); auto. }
  assert (W2 : forall X M c, shape X = [M; c] -> (10 <= c)%nat ->
     exists F F', tut_wing X = Ok F /\ tut_wing (mk2 M 10 (fun i j => X.[i, j])) = Ok F' /\ F === F').
  { intros X M c HX Hc. assert (EX : np_atleast_2d X = X) by (unfold np_atleast_2d; rewrite HX; reflexivity). unfold tut_wing, ten_columns. rewrite EX, HX. destruct (Nat.ltb_spec c 10); [lia|].
    cbn [rbind np_atleast_2d shape mk2 Nat.ltb Nat.leb]. eexists. eexists. split; [reflexivity|]. split; [reflexivity|].
    unfold value_col. rewrite (nrows_shape2 _ _ _ _ HX). apply (eqnd2 _ M 1); auto. }
  assert (W1 : forall h k, In (h, k) normalized_functions -> forall X M, shape X = [M; 1%nat] ->
     exists F F', h X = Ok F /\ h (mk2 M k (fun i _ => X.[i, 0%nat])) = Ok F' /\ F === F').
  { intros h k Hin X M HX. unfold normalized_functions in Hin. simpl in Hin.
    repeat match type of Hin with _ \/ _ => destruct Hin as [E|Hin] | False => destruct Hin end; injection E as <- <-;
    match goal with |- exists F F', ?h ?X0 = _ /\ _ => unfold h end;
    match goal with |- context [rbind (unnorm ?xl ?xu _) _] => destruct (U xl xu X M eq_refl HX) as (Y & Y' & E1 & E2 & S1 & S2 & VV) end;
    cbn [List.length otl_xl piston_xl wing_xl robot_xl] in *;
    rewrite E1, E2; cbn [rbind]; eexists; eexists; (split; [reflexivity|]); (split; [reflexivity|]);
    (first [eapply V; [exact S1|exact S2|exact VV|]|eapply H; [exact S1|exact S2|exact VV|]]);
    apply Row; reflexivity. }
  split; [exact W1|]. split; [exact W2|]. split.
  - intros K. destruct (W1 wing 10%nat ltac:(unfold normalized_functions; simpl; tauto) (mk2 1 1 (fun _ _ => 0)) 1%nat eq_refl) as (F & F' & E & _).
    destruct (K (mk2 1 1 (fun _ _ => 0)) 1%nat 1%nat eq_refl ltac:(discriminate)) as (e & Ee). congruence.
  - intros K. destruct (W2 (mk2 1 11 (fun _ _ => 1)) 1%nat 11%nat eq_refl ltac:(lia)) as (F & F' & E & _).
    destruct (K (mk2 1 11 (fun _ _ => 1)) 1%nat 11%nat eq_refl ltac:(discriminate)) as (e & Ee). congruence.
Qed.
Print Assumptions C83_one_column_refuted.

(** ** Other places *)
(** forward: one column per input; W1 and W2 must be there *)
Theorem C83_forward : forall (a : avmap) (X : nd R) M c,
  let s := d_subs (av_domain a) in
  shape X = [M; c] ->
  (forall W1 W2 m n k, s_W1 s = Some W1 -> s_W2 s = Some W2 -> shape W1 = [m; n] -> shape W2 = [m; k] -> c <> m ->
     av_forward a X = Err ValueError) /\
  (s_W1 s = None \/ s_W2 s = None -> is_err (av_forward a X)).
Proof.
  intros a X M c s HX. unfold av_forward. rewrite (process_inputs_eq _ X M c HX). cbn [rbind]. fold s. split.
  - intros W1 W2 m n k E1 E2 S1 S2 Hc. rewrite E1, E2. cbn [need rbind]. unfold npdot, mdot. rewrite HX, S1.
    destruct (Nat.eqb_spec c m); [contradiction|reflexivity].
  - intros [E|E]; rewrite E; [eexists; reflexivity|]. destruct (s_W1 s); eexists; reflexivity.
Qed.
Print Assumptions C83_forward.

(** the end points of the interval exist for one active variable only *)
Theorem C83_interval : forall W1 m n, shape W1 = [m; n] -> n <> 1%nat ->
  interval_endpoints W1 = Err (if Nat.eqb n 0 then IndexError else ValueError).
Proof.
  intros W1 m n H Hn. unfold interval_endpoints, shape2. rewrite H. cbn [rbind].
  unfold npdot, tr, mdot, nrows, ncols. rewrite H. cbn [shape mk2 nth amap]. rewrite H, Nat.eqb_refl. cbn [rbind]. unfold first2. cbn [shape mk2].
  destruct n as [|[|n]]; [reflexivity|lia|]. reflexivity.
Qed.
Print Assumptions C83_interval.

(** the maximin objective and its gradient need at least one point and one vertex *)
Theorem C83_maximin : forall (vert y : nd R) Nv n N, shape vert = [Nv; S n] -> shape y = [(N * S n)%nat] ->
  N = 0%nat \/ Nv = 0%nat -> maximin_obj vert y = Err ValueError /\ maximin_grad vert y = Err ValueError.
Proof.
  intros vert y Nv n N HV Hy H0. unfold maximin_obj, maximin_grad, shape2. rewrite HV. cbn [rbind].
  assert (Sy : (size y / S n = N)%nat) by (unfold size; rewrite Hy; cbn [prodn]; rewrite Nat.mul_1_r; apply Nat.div_mul; lia).
  rewrite Sy. change (guard (negb (Nat.eqb (S n) 0)) ZeroDivisionError) with (Ok tt). cbn [rbind].
  destruct (reshape_ok _ [(Nv * S n)%nat] vert) as (v & Ev & _); [unfold size; rewrite HV; simpl; lia|]. rewrite Ev. cbn [rbind].
  destruct (reshape_ok _ [N; S n] y) as (Y & EY & SY & _); [unfold size; rewrite Hy; simpl; lia|]. rewrite EY. cbn [rbind].
  unfold distance_matrix, shape2. rewrite SY, HV. cbn [rbind]. unfold guard. rewrite Nat.eqb_refl. cbn [rbind].
  unfold amin_flat, nrows, ncols. cbn [shape mk2 nth].
  destruct N as [|N]; [auto|]. destruct H0 as [H0|H0]; [discriminate|]. subst Nv. rewrite Nat.mul_0_r.
  destruct (S N * S N)%nat; auto.
Qed.
Print Assumptions C83_maximin.

(** errbnd_partition: for m >= 2 it needs m - 1 errors in one column, and for m = 1 there is no
    partition *)
Theorem C83_errbnd : forall (e b : nd R) m r c, shape e = [m; 1%nat] -> shape b = [r; c] ->
  ((m <= 1)%nat -> errbnd_partition e b = Err ValueError) /\
  ((2 <= m)%nat -> r = 0%nat -> errbnd_partition e b = Err IndexError) /\
  ((2 <= m)%nat -> r <> 0%nat -> c <> 1%nat -> errbnd_partition e b = Err ValueError) /\
  ((2 <= m)%nat -> c = 1%nat -> (r < m - 1)%nat -> errbnd_partition e b = Err IndexError) /\
  ((2 <= m)%nat -> c = 1%nat -> (m - 1 <= r)%nat -> exists k eb, errbnd_partition e b = Ok (k, eb)).
Proof.
  intros e b m r c He Hb. unfold errbnd_partition. rewrite (nrows_shape2 _ _ _ _ He), (nrows_shape2 _ _ _ _ Hb), (ncols_shape2 _ _ _ _ Hb). split; [|split; [|split; [|split]]].
  - intros H. destruct m as [|[|]]; [reflexivity| |lia]. cbn [Nat.ltb Nat.leb andb]. reflexivity.
  - intros H ->. destruct m as [|[|m]]; try lia. reflexivity.
  - intros H Hr Hc. destruct m as [|[|m]]; try lia. destruct r; [lia|]. apply Nat.eqb_neq in Hc. rewrite Hc. reflexivity.
  - intros H -> Hr. destruct m as [|[|m]]; try lia. destruct r; [reflexivity|]. cbn [Nat.eqb negb andb]. rewrite !andb_false_r. destruct (Nat.ltb_spec (S r) (S m)); [reflexivity|lia].
  - intros H -> Hr. destruct m as [|[|m]]; try lia. destruct r; [lia|]. cbn [Nat.eqb negb andb]. rewrite !andb_false_r. destruct (Nat.ltb_spec (S r) (S m)); [lia|]. eexists _, _. reflexivity.
Qed.
Print Assumptions C83_errbnd.

(** atleast_2d: vectors become rows or columns, matrices stay, scalars and
    unknown layouts are refused *)
Theorem C83_atleast_2d : forall A (X : nd A),
  (forall l, rank X = 2%nat -> atleast_2d X l = Ok X) /\
  (forall n, shape X = [n] ->
     (exists Y, atleast_2d X "row" = Ok Y /\ shape Y = [1%nat; n] /\ forall j, Y.[0%nat, j] = X.[j]) /\
     (exists Y, atleast_2d X "col" = Ok Y /\ shape Y = [n; 1%nat] /\ forall i, Y.[i, 0%nat] = X.[i]) /\
     forall l, l <> "row"%string -> l <> "col"%string -> atleast_2d X l = Err (Exc "oned_as must be 'row' or 'col' ")) /\
  (shape X = [] ->
     atleast_2d X "row" = Err IndexError /\ atleast_2d X "col" = Err IndexError /\
     forall l, l <> "row"%string -> l <> "col"%string -> atleast_2d X l = Err (Exc "oned_as must be 'row' or 'col' ")).
Proof.
  intros A X. unfold atleast_2d. split; [|split].
  - intros l H. unfold rank in H. destruct (shape X) as [|a [|b t]]; try discriminate. reflexivity.
  - intros n H. rewrite H. split; [|split].
    + eexists. split; [reflexivity|]. split; [reflexivity|]. intros; reflexivity.
    + eexists. split; [reflexivity|]. split; [reflexivity|]. intros; reflexivity.
    + intros l H1 H2. apply String.eqb_neq in H1, H2. now rewrite H1, H2.
  - intros H. rewrite H. split; [reflexivity|]. split; [reflexivity|].
    intros l H1 H2. apply String.eqb_neq in H1, H2. now rewrite H1, H2.
Qed.
Print Assumptions C83_atleast_2d.

(** a hit-and-run step needs a constraint that stops the walk on either side *)
Theorem C83_hit_and_run : forall (G : gen) (U L : Type) (A b z0 d : nd R) (w : world G U L) r k,
  shape A = [r; k] -> shape b = [r; 1%nat] -> shape z0 = [k; 1%nat] -> shape d = [k; 1%nat] ->
  let f i := b.[i, 0%nat] - sumf k (fun l => A.[i, l] * z0.[l, 0%nat]) in
  let g i := sumf k (fun l => A.[i, l] * d.[l, 0%nat]) in
  (forall i, (i < r)%nat -> f i < - sqrt (/ 2 ^ 52) -> g i <= 0) \/ (forall i, (i < r)%nat -> f i < - sqrt (/ 2 ^ 52) -> 0 < g i) ->
  hr_step A b z0 d w = (Err ValueError, w).
Proof.
  intros G U L A b z0 d w r k HA Hb Hz Hd f g H. unfold hr_step.
  assert (P : forall v, shape v = [k; 1%nat] -> npdot A v = Ok (mk2 r 1 (fun i j => sumf k (fun l => A.[i, l] * v.[l, j])))).
  { intros v Hv. unfold npdot, mdot. rewrite HA, Hv, Nat.eqb_refl. reflexivity. }
  rewrite (P z0 Hz), (P d Hd). unfold mbind at 1. cbn [mlift].
  unfold bcast2 at 1. rewrite Hb. cbn [shape mk2]. rewrite !bdim_same. unfold mbind at 1. cbn [mlift]. unfold mbind at 1. cbn [mlift].
  set (F := mk2 r 1 _). set (Gm := mk2 r 1 (fun i j => sumf k (fun l => A.[i, l] * d.[l, j]))).
  assert (VF : forall i, (i < r)%nat -> F.[i, 0%nat] = f i).
  { intros i Hi. unfold F, f. unfold mk2. cbn [at_ nth]. unfold bidx. cbn [Nat.eqb]. destruct (Nat.eqb_spec r 1); [replace i with 0%nat by lia|]; reflexivity. }
  assert (VG : forall i, Gm.[i, 0%nat] = g i) by reflexivity.
  assert (NF : nrows F = r) by reflexivity.
  assert (Emp : forall sel, (forall i, (i < r)%nat -> (sel (g i) && Rltb (f i) (- sqrt_eps))%bool = false) -> ratios F Gm sel = []).
  { intros sel Hs. unfold ratios. rewrite NF. replace (filter _ (seq 0 r)) with (@nil nat); [reflexivity|].
    symmetry. assert (Al : forall l, (forall i, In i l -> (i < r)%nat) -> filter (fun i => (sel (Gm.[i, 0%nat]) && Rltb (F.[i, 0%nat]) (- sqrt_eps))%bool) l = []).
    { induction l as [|i l IH]; intros Hl; [reflexivity|]. cbn [filter]. rewrite VF, VG by (apply Hl; left; auto). rewrite Hs by (apply Hl; left; auto).
      apply IH. intros; apply Hl; right; auto. }
    apply Al. intros i Hi. apply in_seq in Hi. lia. }
  destruct H as [H|H].
  - rewrite (Emp (fun g => Rltb 0 g)).
    + unfold mbind. cbn [mlift np_amax]. unfold mlift. destruct (np_amin _) as [v|ex] eqn:E; [reflexivity|].
      unfold np_amin in E. destruct (ratios F Gm _); congruence.
    + intros i Hi. unfold Rltb. destruct (Rlt_dec 0 (g i)); [|reflexivity]. destruct (Rlt_dec (f i) (- sqrt_eps)) as [K|]; [|reflexivity].
      specialize (H i Hi K). lra.
  - rewrite (Emp (fun g => Rleb g 0)); [reflexivity|].
    intros i Hi. unfold Rleb, Rltb. destruct (Rle_dec (g i) 0); [|reflexivity]. destruct (Rlt_dec (f i) (- sqrt_eps)) as [K|]; [|reflexivity].
    specialize (H i Hi K). lra.
Qed.
Print Assumptions C83_hit_and_run.

(** a 2-by-3 array meets a vector of length 3, not one of length 2 *)
Example C83_case : 
  (exists Z, bcast Rplus (mk2 2 3 (fun i j => INR (i + j))) (mk1 3 (fun j => 10)) = Ok Z /\ shape Z = [2%nat; 3%nat] /\ Z.[1%nat, 2%nat] = 13) /\
  bcast Rplus (mk2 2 3 (fun i j => INR (i + j))) (mk1 2 (fun j => 10)) = Err ValueError /\
  wing (mk2 5 9 (fun _ _ => 0)) = Err ValueError /\ (exists F, wing (mk2 5 1 (fun _ _ => 0)) = Ok F /\ shape F = [5%nat; 1%nat]) /\
  borehole (mk2 5 3 (fun _ _ => 0)) = Err ValueError /\
  @hr_step toy_gen unit unit (mk2 2 1 (fun _ _ => 1)) (mk2 2 1 (fun _ _ => -1)) (mk2 1 1 (fun _ _ => 0)) (mk2 1 1 (fun _ _ => 1)) (toy_world tt) = (Err ValueError, toy_world tt).
Proof.
  split; [eexists; split; [reflexivity|]; split; [reflexivity|simpl; lra]|]. split; [reflexivity|].
  destruct C83_test_functions_partial as (T1 & T2 & _). destruct C83_one_column_refuted as (O1 & _).
  split; [apply (T1 wing 10%nat ltac:(unfold normalized_functions; simpl; tauto) (mk2 5 9 (fun _ _ => 0)) 5%nat 9%nat eq_refl); discriminate|].
  split.
  - destruct (O1 wing 10%nat ltac:(unfold normalized_functions; simpl; tauto) (mk2 5 1 (fun _ _ => 0)) 5%nat eq_refl) as (F & F' & E & _ & S & _).
    exists F. split; auto. unfold wing in E. destruct (unnorm wing_xl wing_xu (np_atleast_2d (mk2 5 1 (fun _ _ => 0)))) as [Y|] eqn:EY; [|discriminate].
    cbn [rbind] in E. injection E as <-. unfold value_col. cbn [shape mk2].
    destruct (unnorm_col wing_xl wing_xu (mk2 5 1 (fun _ _ => 0)) 5 eq_refl eq_refl) as (Y' & E' & S' & _).
    change (np_atleast_2d (mk2 5 1 (fun _ _ : nat => 0))) with (mk2 5 1 (fun _ _ : nat => 0)) in EY. rewrite EY in E'. injection E' as ->.
    rewrite (nrows_shape2 _ _ _ _ S'). reflexivity.
  - split; [apply (T2 (mk2 5 3 (fun _ _ => 0)) 5%nat 3%nat eq_refl); discriminate|].
    apply (C83_hit_and_run toy_gen unit unit (mk2 2 1 (fun _ _ => 1)) (mk2 2 1 (fun _ _ => -1)) (mk2 1 1 (fun _ _ => 0)) (mk2 1 1 (fun _ _ => 1)) (toy_world tt) 2 1 eq_refl eq_refl eq_refl eq_refl).
    right. intros i Hi _. simpl. lra.
Qed.
