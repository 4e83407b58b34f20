(** Lemmas for utils/qp_solver.py: what the back ends are asked to solve *)
From Coq Require Import String Reals Lra Lia List Arith ZArith Bool.
From Verif Require Import Prelude Py NumArr M_QP.
Import ListNotations.
Open Scope R_scope.

(** ** Documented meaning of a back-end problem (points are x : nat -> R) *)

Definition within (b : option R * option R) (v : R) : Prop :=
  (match fst b with Some l => l <= v | None => True end) /\ (match snd b with Some u => v <= u | None => True end).
Definition bounds_ok (l : list (option R * option R)) (x : nat -> R) : Prop :=
  forall j p, nth_error l j = Some p -> within p (x j).

(** linprog: minimise c.x subject to A_ub x <= b_ub, A_eq x = b_eq, bounds *)
Definition lp_wf (P : lp) (n : nat) : Prop :=
  shape (lp_c P) = [n] /\ List.length (lp_bounds P) = n /\
  (forall A b, lp_ub P = Some (A, b) -> exists r, shape A = [r; n] /\ shape b = [r]) /\
  (forall A b, lp_eq P = Some (A, b) -> exists r, shape A = [r; n] /\ shape b = [r]).
Definition lp_feas (P : lp) (n : nat) (x : nat -> R) : Prop :=
  (forall A b i, lp_ub P = Some (A, b) -> (i < nrows A)%nat -> sumf n (fun j => A.[i, j] * x j) <= b.[i]) /\
  (forall A b i, lp_eq P = Some (A, b) -> (i < nrows A)%nat -> sumf n (fun j => A.[i, j] * x j) = b.[i]) /\
  bounds_ok (lp_bounds P) x.
Definition lp_obj (P : lp) (n : nat) (x : nat -> R) : R := sumf n (fun j => (lp_c P).[j] * x j).

(** minimize: minimise fun subject to bounds and constraint values >= 0 *)
Definition mp_feas (P : mprob) (n : nat) (x : nat -> R) : Prop :=
  bounds_ok (mp_bounds P) x /\
  (forall g jg, mp_cons P = Some (g, jg) -> exists v r, g (mk1 n x) = Ok v /\ shape v = [r] /\ forall i, (i < r)%nat -> 0 <= v.[i]).

(** gurobi: minimise the objective subject to bounds and constraints *)
Definition gexpr (l : list (R * nat)) (x : nat -> R) : R := sumr (map (fun p => fst p * x (snd p)) l).
Definition gm_feas (P : gmodel) (x : nat -> R) : Prop :=
  bounds_ok (gm_vars P) x /\
  (forall t s b, In (t, s, b) (gm_cons P) -> match s with GEqual => gexpr t x = b | GGreaterEqual => b <= gexpr t x end).
Definition gm_obj (P : gmodel) (x : nat -> R) : R :=
  sumr (map (fun p => fst (fst p) * x (snd (fst p)) * x (snd p)) (gm_quad P)) + gexpr (gm_lin P) x.

(** ** Lemmas *)
Lemma mapr_seq : forall A (f : nat -> res A) (g : nat -> A) n a, (forall i, (a <= i < a + n)%nat -> f i = Ok (g i)) ->
  mapr f (seq a n) = Ok (map g (seq a n)).
Proof.
  intros A f g n. induction n; intros a H; simpl; [reflexivity|].
  rewrite H by lia. simpl. rewrite IHn by (intros; apply H; lia). reflexivity.
Qed.

Lemma mapr_all : forall A C (f : A -> res C) (g : A -> C) l, (forall a, In a l -> f a = Ok (g a)) -> mapr f l = Ok (map g l).
Proof.
  intros A C f g l. induction l; intros H; simpl; [reflexivity|]. rewrite H by now left. simpl.
  rewrite IHl by (intros; apply H; now right). reflexivity.
Qed.

Lemma get2_ok : forall X r c i j, shape X = [r; c] -> (i < r)%nat -> (j < c)%nat -> get2 X i j = Ok (X.[i, j]).
Proof.
  intros X r c i j HX Hi Hj. unfold get2. rewrite HX.
  destruct (Nat.ltb_spec i r); [|lia]. destruct (Nat.ltb_spec j c); [|lia]. reflexivity.
Qed.

Lemma size_col : forall (X : nd R) n, shape X = [n; 1%nat] -> size X = n.
Proof. intros X n H. unfold size. rewrite H. simpl. lia. Qed.

Lemma bounds_of_ok : forall lb ub n, shape lb = [n; 1%nat] -> shape ub = [n; 1%nat] ->
  bounds_of lb ub n = Ok (map (fun i => (Some (lb.[i, 0%nat]), Some (ub.[i, 0%nat]))) (seq 0 n)).
Proof.
  intros lb ub n Hl Hu. unfold bounds_of. apply mapr_seq. intros i Hi.
  rewrite (get2_ok lb n 1), (get2_ok ub n 1) by (auto; lia). reflexivity.
Qed.

Lemma nth_error_seq : forall A (f : nat -> A) n j p, nth_error (map f (seq 0 n)) j = Some p <-> (j < n)%nat /\ p = f j.
Proof.
  intros A f n j p. split.
  - intros H. assert (L : (j < n)%nat).
    { assert (Hl := nth_error_Some (map f (seq 0 n)) j). rewrite map_length, seq_length in Hl. apply Hl. congruence. }
    split; auto. apply nth_error_nth with (d := p) in H. rewrite nth_map_seq in H; auto.
  - intros [L ->]. rewrite nth_error_nth' with (d := f 0%nat) by now rewrite map_length, seq_length.
    now rewrite nth_map_seq.
Qed.

Lemma bounds_ok_of : forall (lb ub : nd R) n x,
  bounds_ok (map (fun i => (Some (lb.[i, 0%nat]), Some (ub.[i, 0%nat]))) (seq 0 n)) x <->
  (forall j, (j < n)%nat -> lb.[j, 0%nat] <= x j <= ub.[j, 0%nat]).
Proof.
  intros lb ub n x. split.
  - intros H j Hj. specialize (H j _ (proj2 (nth_error_seq _ _ n j _) (conj Hj eq_refl))). exact H.
  - intros H j p E. apply nth_error_seq in E. destruct E as [Hj ->]. split; simpl; apply H; auto.
Qed.
Lemma bounds_ok_free : forall n x, bounds_ok (repeat (None, None) n) x.
Proof. intros n x j p H. apply nth_error_In, repeat_spec in H. subst p. split; exact I. Qed.
Lemma bounds_ok_nil : forall x, bounds_ok [] x.
Proof. intros x j p H. destruct j; discriminate. Qed.

Lemma col_flat : forall (X : nd R) n, shape X = [n; 1%nat] ->
  exists Y, reshape [size X] X = Ok Y /\ shape Y = [n] /\ forall i, (i < n)%nat -> Y.[i] = X.[i, 0%nat].
Proof.
  intros X n HX. destruct (reshape_ok R [size X] X) as (Y & EY & SY & HY); [simpl; lia|].
  exists Y. rewrite (size_col X n HX) in *. split; auto. split; auto. intros i Hi.
  rewrite HY by (constructor; auto; constructor). rewrite HX. cbn [unravel ravel prodn].
  rewrite !Nat.mul_1_r, Nat.add_0_r. change (1 * 1)%nat with 1%nat. rewrite Nat.div_1_r, Nat.mod_1_r. reflexivity.
Qed.

Lemma flat_col : forall (X : nd R) n, shape X = [n] ->
  exists Y, reshape [n; 1%nat] X = Ok Y /\ shape Y = [n; 1%nat] /\ forall i, (i < n)%nat -> Y.[i, 0%nat] = X.[i].
Proof.
  intros X n HX. destruct (reshape_ok R [n; 1%nat] X) as (Y & EY & SY & HY); [unfold size; rewrite HX; simpl; lia|].
  exists Y. split; auto. split; auto. intros i Hi. rewrite HY by (repeat constructor; lia). rewrite HX.
  cbn [unravel ravel prodn]. rewrite !Nat.mul_1_r, !Nat.add_0_r. rewrite Nat.div_1_r. reflexivity.
Qed.

Lemma qp_fun_val : forall c Q x n, shape c = [n; 1%nat] -> shape Q = [n; n] -> shape x = [n] ->
  qp_fun c Q x = Ok (sumf n (fun j => c.[j, 0%nat] * x.[j]) + sumf n (fun i => sumf n (fun j => Q.[i, j] * x.[i] * x.[j]))).
Proof.
  intros c Q x n Hc HQ Hx. unfold qp_fun, npdot. rewrite Hc, HQ, Hx, Nat.eqb_refl. cbn [rbind shape mk1]. rewrite Nat.eqb_refl.
  cbn [rbind]. unfold bcast. cbn [shape mk1 rev app bshape rbind first1]. f_equal. unfold bget, rank. cbn [shape mk1 List.length skipn Nat.sub bixs bidx Nat.eqb at_ nth].
  f_equal; [apply sumf_ext; intros; ring|]. apply sumf_ext. intros i Hi. rewrite <- sumf_scal_l. apply sumf_ext. intros; ring.
Qed.

Lemma qp_jac_val : forall c Q x n, shape c = [n; 1%nat] -> shape Q = [n; n] -> shape x = [n] ->
  exists J, qp_jac c Q x = Ok J /\ shape J = [n] /\
    forall k, (k < n)%nat -> J.[k] = c.[k, 0%nat] + 2 * sumf n (fun i => x.[i] * Q.[i, k]).
Proof.
  intros c Q x n Hc HQ Hx. unfold qp_jac, npdot. rewrite HQ, Hx, Nat.eqb_refl. cbn [rbind]. unfold bcast, tr.
  rewrite (nrows_shape2 _ c _ _ Hc), (ncols_shape2 _ c _ _ Hc). cbn [shape mk1 mk2 amap rev app bshape]. unfold bdim. rewrite Nat.eqb_refl.
  cbn [rbind rev app shape first2]. eexists. split; [reflexivity|]. split; [reflexivity|]. intros k Hk.
  unfold bget, rank. cbn [shape mk1 mk2 List.length skipn Nat.sub bixs at_ nth amap]. rewrite !(bidx_ok n) by auto. rewrite (bidx_ok 1) by lia. reflexivity.
Qed.

Lemma qp_cons_val : forall A b x r n, shape A = [r; n] -> shape b = [r] -> shape x = [n] ->
  exists v, qp_cons A b x = Ok v /\ shape v = [r] /\ forall i, (i < r)%nat -> v.[i] = sumf n (fun j => A.[i, j] * x.[j]) - b.[i].
Proof.
  intros A b x r n HA Hb Hx. unfold qp_cons, npdot. rewrite HA, Hx, Nat.eqb_refl. cbn [rbind]. unfold bcast.
  cbn [shape mk1 rev app]. rewrite Hb. cbn [rev app bshape]. unfold bdim. rewrite Nat.eqb_refl. cbn [rev app].
  eexists. split; [reflexivity|]. split; [reflexivity|]. intros i Hi. unfold bget, rank. cbn [shape mk1]. rewrite Hb.
  cbn [List.length skipn Nat.sub bixs at_ nth]. rewrite !(bidx_ok r) by auto. reflexivity.
Qed.

Lemma g_cons_ok : forall A b m n s, shape b = [m; 1%nat] ->
  g_cons A b m n s = Ok (map (fun i => (row_expr A i n, s, b.[i, 0%nat])) (seq 0 m)).
Proof. intros A b m n s Hb. unfold g_cons. apply mapr_seq. intros i Hi. rewrite (get2_ok b m 1) by (auto; lia). reflexivity. Qed.
Lemma g_lin_ok : forall c n, shape c = [n; 1%nat] -> g_lin c n = Ok (map (fun j => (c.[j, 0%nat], j)) (seq 0 n)).
Proof. intros c n Hc. unfold g_lin. apply mapr_seq. intros i Hi. rewrite (get2_ok c n 1) by (auto; lia). reflexivity. Qed.
Lemma g_quad_ok : forall Q n, shape Q = [n; n] ->
  g_quad Q n = Ok (map (fun p => (Q.[fst p, snd p], fst p, snd p)) (list_prod (seq 0 n) (seq 0 n))).
Proof.
  intros Q n HQ. unfold g_quad. apply mapr_all. intros [i j] H. apply in_prod_iff in H. destruct H as [Hi Hj].
  apply in_seq in Hi. apply in_seq in Hj. simpl. rewrite (get2_ok Q n n) by (auto; lia). reflexivity.
Qed.

Lemma gexpr_row : forall A i n x, gexpr (row_expr A i n) x = sumf n (fun j => A.[i, j] * x j).
Proof. intros A i n x. unfold gexpr, row_expr. rewrite map_map. cbn [fst snd]. apply sumr_map_seq. Qed.
Lemma gexpr_lin : forall (c : nd R) n x, gexpr (map (fun j => (c.[j, 0%nat], j)) (seq 0 n)) x = sumf n (fun j => c.[j, 0%nat] * x j).
Proof. intros c n x. unfold gexpr. rewrite map_map. cbn [fst snd]. apply sumr_map_seq. Qed.
Lemma gquad_sum : forall (Q : nd R) n x,
  sumr (map (fun p => fst (fst p) * x (snd (fst p)) * x (snd p)) (map (fun p => (Q.[fst p, snd p], fst p, snd p)) (list_prod (seq 0 n) (seq 0 n))))
  = sumf n (fun i => sumf n (fun j => Q.[i, j] * x i * x j)).
Proof.
  intros Q n x. rewrite map_map. cbn [fst snd].
  assert (K : forall l, sumr (map (fun p : nat * nat => Q.[fst p, snd p] * x (fst p) * x (snd p)) (list_prod l (seq 0 n)))
            = sumr (map (fun i => sumf n (fun j => Q.[i, j] * x i * x j)) l)).
  { induction l as [|a l IH]; [reflexivity|]. cbn [list_prod map sumr]. rewrite map_app, sumr_app, IH. f_equal.
    rewrite map_map. cbn [fst snd]. apply sumr_map_seq. }
  rewrite K. apply sumr_map_seq.
Qed.

Lemma billion_pos : exists k, billion = S k.
Proof. exists (Nat.pred billion). unfold billion. assert (0 < Z.to_nat 1000000000)%nat by (apply Nat2Z.inj_lt; rewrite Z2Nat.id; lia). lia. Qed.

(** what a failing back end does: one dump file, one random number used, exception *)
Definition dumped {G U L} (w : world G U L) : world G U L :=
  World (snd (g_randint G billion (rng w))) (usr w) (calls w) (S (files w)).
Lemma dump_val : forall G U L A msg (w : world G U L), @dump_and_raise G U L A msg w = (Err (Exc msg), dumped w).
Proof.
  intros. unfold dump_and_raise, mbind, draw_randint, dumped. destruct billion_pos as (k & E). rewrite E.
  destruct (g_randint G (S k) (rng w)) as [a s] eqn:Eg. reflexivity.
Qed.
