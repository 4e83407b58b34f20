(** Lemmas about integrals.py *)
From Coq Require Import String Reals Lra Lia List Arith ZArith Bool.
From Verif Require Import Prelude Py NumArr M_Misc M_SimRunners M_RespSurf M_Gradients M_Subspaces M_Quadrature M_QP M_Domains M_Designs M_ASRS M_Integrals
  P_Misc P_Bootstrap P_DomSample P_Domains P_CondExp P_Quiet P_Inverse Properties_QP Properties_Domains Properties_Designs.
Import ListNotations.
Open Scope R_scope.

(** k uniform numbers *)
Fixpoint uniforms {G : gen} (lo hi : R) (k : nat) (s : gst G) : list R * gst G :=
  match k with O => ([], s) | S k' => let (x, s1) := g_unif G s in let (l, s2) := uniforms lo hi k' s1 in (lo + (hi - lo) * x :: l, s2) end.
Lemma repeat_uniforms : forall (G : gen) (U L : Type) lo hi k (w : world G U L),
  repeatM k (draw_uniform lo hi) w = (Ok (fst (uniforms lo hi k (rng w))), set_rng w (snd (uniforms lo hi k (rng w)))).
Proof.
  intros G U L lo hi. induction k; intros w; simpl.
  - unfold mret. f_equal. destruct w; reflexivity.
  - unfold mbind, draw_uniform at 1. destruct (g_unif G (rng w)) as [x s1] eqn:E. rewrite IHk. cbn [set_rng rng].
    destruct (uniforms lo hi k s1) as [l s2]. reflexivity.
Qed.
Lemma uniforms_length : forall (G : gen) lo hi k (s : gst G), List.length (fst (uniforms lo hi k s)) = k.
Proof. intros G lo hi. induction k; intros s; cbn [uniforms]; auto. destruct (g_unif G s) as [x s1]. specialize (IHk s1). destruct (uniforms lo hi k s1). simpl in *. now rewrite IHk. Qed.
Lemma uniforms_range : forall (G : gen) lo hi k (s : gst G) i, lo <= hi -> (i < k)%nat -> lo <= nth i (fst (uniforms lo hi k s)) 0 <= hi.
Proof.
  intros G lo hi. induction k; intros s i H Hi; [lia|]. cbn [uniforms]. assert (Q := g_unif_spec G s). destruct (g_unif G s) as [x s1]. specialize (IHk s1).
  destruct (uniforms lo hi k s1) as [l s2]. cbn [fst] in *. destruct i as [|i]; cbn [nth]; [nra|]. apply IHk; auto. lia.
Qed.
Lemma uniform2_run : forall (G : gen) (U L : Type) lo hi r c (w : world G U L), let us := uniforms lo hi (r * c) (rng w) in
  uniform2 lo hi r c w = (Ok (mk2 r c (fun i j => nth (i * c + j) (fst us) 0)), set_rng w (snd us)).
Proof. intros. unfold uniform2, mbind. rewrite repeat_uniforms. reflexivity. Qed.

(** ** Histograms *)

(** k of the numbers below n satisfy P *)
Definition number (n k : nat) (P : nat -> Prop) : Prop :=
  exists l : list nat, NoDup l /\ List.length l = k /\ forall s, In s l <-> (s < n)%nat /\ P s.
Lemma number_filter : forall n (f : nat -> bool) (P : nat -> Prop), (forall s, (s < n)%nat -> f s = true <-> P s) -> number n (List.length (filter f (seq 0 n))) P.
Proof.
  intros n f P H. exists (filter f (seq 0 n)). split; [apply NoDup_filter, seq_NoDup|]. split; auto. intros s. rewrite filter_In, in_seq. split.
  - intros [A Bb]. split; [lia|]. apply H; auto. lia.
  - intros [A Bb]. split; [lia|]. now apply H.
Qed.
Lemma number_ext : forall n k (P Q : nat -> Prop), (forall s, (s < n)%nat -> P s <-> Q s) -> number n k P -> number n k Q.
Proof. intros n k P Q H (l & A & B & C). exists l. split; auto. split; auto. intros s. rewrite C. split; intros [X Y]; split; auto; now apply H. Qed.
Lemma filter_map_len : forall A C (f : C -> bool) (g : A -> C) l, List.length (filter f (map g l)) = List.length (filter (fun x => f (g x)) l).
Proof. intros. induction l; simpl; auto. destruct (f (g a)); simpl; auto. Qed.
Lemma filter_diff : forall A (f g h : A -> bool) l, (forall x, In x l -> f x = true -> g x = true) -> (forall x, In x l -> h x = (g x && negb (f x))%bool) ->
  List.length (filter g l) = (List.length (filter f l) + List.length (filter h l))%nat.
Proof.
  intros A f g h l. induction l as [|x l IH]; intros H1 H2; auto. cbn [filter].
  rewrite (H2 x) by now left. assert (Q := H1 x (or_introl eq_refl)).
  assert (E := IH (fun y Hy => H1 y (or_intror Hy)) (fun y Hy => H2 y (or_intror Hy))).
  destruct (f x), (g x); simpl; try lia.
Qed.
Lemma Rltb_spec : forall a b, Rltb a b = true <-> a < b.
Proof. intros a b. unfold Rltb. destruct (Rlt_dec a b); split; auto; discriminate. Qed.
Lemma increasing_ok : forall l, (forall i, (S i < List.length l)%nat -> nth i l 0 <= nth (S i) l 0) -> increasing l = true.
Proof.
  induction l as [|a [|b l] IH]; intros H; auto. cbn [increasing]. apply andb_true_intro. split.
  - apply Rleb_spec. apply (H 0%nat). simpl. lia.
  - apply IH. intros i Hi. apply (H (S i)). simpl in *. lia.
Qed.

(** NX samples y and N bins with edges e 0 <= ... <= e N, the last one closed *)
Definition in_bin (e : nat -> R) (N i : nat) (y : R) : Prop := e i <= y < e (S i) \/ S i = N /\ e i <= y /\ y = e N.
Lemma histogram_ok : forall (y e : nat -> R) NX N, (forall i, (i < N)%nat -> e i <= e (S i)) ->
  exists h, histogram (map y (seq 0 NX)) (map e (seq 0 (S N))) = Ok h /\ List.length h = N /\
    (forall i, (i < N)%nat -> exists c, nth i h 0 = INR c /\ number NX c (fun s => in_bin e N i (y s))) /\
    sumf N (fun i => nth i h 0) = IZR (count_le (map y (seq 0 NX)) (e N) - (if Nat.eqb N 0 then count_le (map y (seq 0 NX)) (e 0%nat) else count_lt (map y (seq 0 NX)) (e 0%nat))).
Proof.
  intros y e NX N H. unfold histogram. set (l := map y (seq 0 NX)). rewrite increasing_ok.
  2: { intros i Hi. rewrite map_length, seq_length in Hi. rewrite !nth_map_seq by lia. apply H. lia. }
  rewrite map_length, seq_length. replace (S N - 1)%nat with N by lia.
  set (cum := fun i => if Nat.eqb (S i) (S N) then count_le l (nth i (map e (seq 0 (S N))) 0) else count_lt l (nth i (map e (seq 0 (S N))) 0)). cbv zeta.
  exists (map (fun i => IZR (cum (S i) - cum i)) (seq 0 N)). split; [reflexivity|]. split; [now rewrite map_length, seq_length|].
  assert (CU : forall i, (i <= N)%nat -> cum i = if Nat.eqb i N then count_le l (e i) else count_lt l (e i)).
  { intros i Hi. unfold cum. rewrite nth_map_seq by lia. cbn [plus]. change (Nat.eqb (S i) (S N)) with (Nat.eqb i N). reflexivity. }
  split.
  - intros i Hi. rewrite nth_map_seq by auto. cbn [plus]. rewrite !CU by lia. destruct (Nat.eqb_spec i N); [lia|].
    unfold count_lt, count_le, l. rewrite !filter_map_len.
    set (f := fun x => Rltb (y x) (e i)). assert (HE := H i Hi).
    destruct (Nat.eqb_spec (S i) N) as [EN|NE].
    + set (h := fun x => (Rleb (y x) (e (S i)) && negb (f x))%bool).
      exists (List.length (filter h (seq 0 NX))). split.
      * rewrite (filter_diff _ f (fun x => Rleb (y x) (e (S i))) h); [rewrite INR_IZR_INZ; f_equal; lia| |auto].
        intros x _ Hx. unfold f in Hx. apply Rltb_spec in Hx. apply Rleb_spec. lra.
      * apply number_filter. intros s Hs. unfold h, f, in_bin. rewrite andb_true_iff, negb_true_iff, Rleb_spec. unfold Rltb. rewrite EN in *.
        destruct (Rlt_dec (y s) (e i)); split; intros K; try (destruct K; discriminate); [destruct K; lra| |].
        -- destruct K as [K _]. destruct (Req_dec (y s) (e N)); [right; split; [auto|lra]|left; lra].
        -- split; auto. lra.
    + set (h := fun x => (Rltb (y x) (e (S i)) && negb (f x))%bool).
      exists (List.length (filter h (seq 0 NX))). split.
      * rewrite (filter_diff _ f (fun x => Rltb (y x) (e (S i))) h); [rewrite INR_IZR_INZ; f_equal; lia| |auto].
        intros x _ Hx. unfold f in Hx. apply Rltb_spec in Hx. apply Rltb_spec. lra.
      * apply number_filter. intros s Hs. unfold h, f, in_bin. rewrite andb_true_iff, negb_true_iff, Rltb_spec. unfold Rltb.
        destruct (Rlt_dec (y s) (e i)); split; intros K; try (destruct K; discriminate); [destruct K; [lra|lia]| |].
        -- left. lra.
        -- split; auto. destruct K; [lra|lia].
  - rewrite (sumf_ext N _ (fun i => IZR (cum (S i)) - IZR (cum i))).
    2: { intros i Hi. rewrite nth_map_seq by auto. cbn [plus]. apply minus_IZR. }
    assert (TE : forall k, sumf k (fun i => IZR (cum (S i)) - IZR (cum i)) = IZR (cum k) - IZR (cum 0%nat)).
    { induction k; cbn [sumf]; [ring|]. rewrite IHk. ring. }
    rewrite TE, <- minus_IZR, !CU by lia. rewrite Nat.eqb_refl. f_equal. f_equal. now rewrite (Nat.eqb_sym 0 N).
Qed.

Lemma count_all : forall l x, (forall v, In v l -> v <= x) -> count_le l x = Z.of_nat (List.length l).
Proof.
  intros l x H. unfold count_le. f_equal. induction l as [|v l IH]; auto. cbn [filter]. rewrite (proj2 (Rleb_spec v x)) by (apply H; now left). simpl. f_equal. apply IH. intros; apply H; now right.
Qed.
Lemma count_none : forall l x, (forall v, In v l -> x <= v) -> count_lt l x = 0%Z.
Proof.
  intros l x H. unfold count_lt. induction l as [|v l IH]; auto. cbn [filter]. destruct (Rltb v x) eqn:E; [apply Rltb_spec in E; assert (Q := H v (or_introl eq_refl)); lra|]. apply IH. intros; apply H; now right.
Qed.

(** ** Shapes of the tensor rules *)

Definition col_rule (rule : Z -> res (nd R * nd R)) : Prop := forall n x w, rule n = Ok (x, w) -> exists q, shape x = [q; 1%nat] /\ shape w = [q; 1%nat].
Lemma g1d_cols : forall eig argsort t, col_rule (fun n => g1d eig argsort n t).
Proof.
  intros eig argsort t n x w H. unfold g1d in H. destruct (Z.ltb 1 n).
  - destruct (if String.eqb t "Hermite" then _ else _) as [ab|e]; [|discriminate]. cbn [rbind] in H. destruct (jacobi_matrix ab) as [J|e]; [|discriminate]. cbn [rbind] in H.
    destruct (eig J) as [[ev V]|e]; [|discriminate]. cbn [rbind] in H. cbv zeta in H.
    match type of H with rbind ?r _ = _ => destruct r as [x'|e] eqn:E1; [|discriminate] end. cbn [rbind] in H.
    match type of H with rbind ?r _ = _ => destruct r as [w'|e] eqn:E2; [|discriminate] end. cbn [rbind] in H. injection H as <- <-.
    apply reshape_inv in E1. apply reshape_inv in E2. exists (Z.to_nat n). split; [apply E1|apply E2].
  - injection H as <- <-. exists 1%nat. split; reflexivity.
Qed.
Lemma kron_shape : forall X Y a b c d, shape X = [a; b] -> shape Y = [c; d] -> shape (kron X Y) = [(a * c)%nat; (b * d)%nat].
Proof. intros X Y a b c d H1 H2. unfold kron. now rewrite (nrows_shape2 _ _ _ _ H1), (ncols_shape2 _ _ _ _ H1), (nrows_shape2 _ _ _ _ H2), (ncols_shape2 _ _ _ _ H2). Qed.
Lemma tensor_fold_err : forall rule l e, fold_left (tensor_step rule) l (Err e) = Err e.
Proof. intros rule. induction l; intros e; auto. cbn [fold_left tensor_step rbind]. apply IHl. Qed.
Lemma tensor_fold_shape : forall rule, col_rule rule -> forall l x w q c x' w', shape x = [q; c] -> shape w = [q; 1%nat] ->
  fold_left (tensor_step rule) l (Ok (x, w)) = Ok (x', w') -> exists q', shape x' = [q'; (c + List.length l)%nat] /\ shape w' = [q'; 1%nat].
Proof.
  intros rule HR. induction l as [|n l IH]; intros x w q c x' w' SX SW H.
  - injection H as <- <-. exists q. rewrite Nat.add_0_r. auto.
  - cbn [fold_left] in H. unfold tensor_step in H at 2. cbn [rbind] in H. destruct (rule n) as [[xi wi]|e] eqn:ER; [|cbn [rbind] in H; rewrite tensor_fold_err in H; discriminate].
    cbn [rbind] in H. destruct (HR n xi wi ER) as (p & Sx & Sw).
    assert (S1 : shape (kron x (ones2 (nrows xi) (ncols xi))) = [(q * p)%nat; c]).
    { rewrite (kron_shape x (ones2 (nrows xi) (ncols xi)) q c p 1 SX); [now rewrite Nat.mul_1_r|]. now rewrite (nrows_shape2 _ _ _ _ Sx), (ncols_shape2 _ _ _ _ Sx). }
    assert (S2 : shape (kron (ones2 (nrows x) 1) xi) = [(q * p)%nat; 1%nat]).
    { rewrite (kron_shape (ones2 (nrows x) 1) xi q 1 p 1 ltac:(now rewrite (nrows_shape2 _ _ _ _ SX)) Sx). reflexivity. }
    unfold hstack in H. rewrite S1, S2, Nat.eqb_refl in H. cbn [rbind] in H.
    match type of H with fold_left _ _ (Ok (?x0, _)) = _ => set (x1 := x0) in H end.
    destruct (IH x1 _ (q * p)%nat (c + 1)%nat x' w' eq_refl (kron_shape w wi q 1 p 1 SW Sw) H) as (q' & A & B).
    exists q'. split; auto. rewrite A. cbn [List.length]. f_equal. f_equal. lia.
Qed.
Lemma tensor_shape : forall rule, col_rule rule -> forall l x w, tensor_rule rule (NList l) = Ok (x, w) -> exists q, shape x = [q; List.length l] /\ shape w = [q; 1%nat].
Proof.
  intros rule HR l x w H. unfold tensor_rule in H. cbn [rbind] in H.
  assert (GEN : (do (x, w) <- fold_left (tensor_step rule) l (Ok (ones2 1 1, ones2 1 1)); Ok (cols_slice x 1 (ncols x), w)) = Ok (x, w) -> exists q, shape x = [q; List.length l] /\ shape w = [q; 1%nat]).
  { clear H. intros H. destruct (fold_left (tensor_step rule) l (Ok (ones2 1 1, ones2 1 1))) as [[x0 w0]|e] eqn:EF; [|discriminate]. cbn [rbind] in H. injection H as <- <-.
    destruct (tensor_fold_shape rule HR l (ones2 1 1) (ones2 1 1) 1 1 x0 w0 eq_refl eq_refl EF) as (q & A & B). exists q. split; auto.
    unfold cols_slice. cbn [shape mk2]. rewrite (nrows_shape2 _ _ _ _ A), (ncols_shape2 _ _ _ _ A). f_equal. f_equal. lia. }
  destruct l as [|n [|n' l]]; auto. exact (HR n x w H).
Qed.
Lemma roots_length : forall N n l, roots N n = Ok l -> List.length l = n.
Proof. intros N n l H. unfold roots in H. destruct (mapr_ok_inv _ _ _ _ _ H) as (A & _). now rewrite seq_length in A. Qed.

(** ** Counting samples per simplex *)
Lemma counts_sum : forall k (l : list Z),
  sumf k (fun i => INR (List.length (filter (fun s => Z.eqb s (Z.of_nat i)) l))) = INR (List.length (filter (fun s => (Z.leb 0 s && Z.ltb s (Z.of_nat k))%bool) l)).
Proof.
  intros k. induction l as [|v l IH]; cbn [filter].
  - simpl. now rewrite sumf_0.
  - set (b := (Z.leb 0 v && Z.ltb v (Z.of_nat k))%bool).
    rewrite (sumf_ext k _ (fun i => (if Z.eqb v (Z.of_nat i) then 1 else 0) + INR (List.length (filter (fun s => Z.eqb s (Z.of_nat i)) l)))).
    2: { intros i Hi. destruct (Z.eqb v (Z.of_nat i)); cbn [List.length]; rewrite ?S_INR; ring. }
    rewrite sumf_plus, IH. destruct b eqn:Eb; unfold b in Eb; cbn [List.length].
    + apply andb_true_iff in Eb. destruct Eb as [E1 E2]. apply Z.leb_le in E1. apply Z.ltb_lt in E2.
      rewrite (sumf_single k (Z.to_nat v)); [|lia|intros i Hi Ne; destruct (Z.eqb_spec v (Z.of_nat i)); [lia|auto]].
      rewrite Z2Nat.id by auto. rewrite Z.eqb_refl, S_INR. ring.
    + rewrite sumf_zero; [ring|]. intros i Hi. destruct (Z.eqb_spec v (Z.of_nat i)) as [->|]; auto. exfalso. apply andb_false_iff in Eb. destruct Eb as [E|E]; [apply Z.leb_gt in E|apply Z.ltb_ge in E]; lia.
Qed.
Lemma filter_nth_seq : forall (f : Z -> bool) l d, List.length (filter f l) = List.length (filter (fun s => f (nth s l d)) (seq 0 (List.length l))).
Proof.
  intros f l d. induction l as [|x l IH]; auto. cbn [List.length seq filter nth]. rewrite <- seq_shift.
  destruct (f x); cbn [List.length]; rewrite filter_map_len; cbn [nth]; now rewrite IH.
Qed.
Lemma filter_le : forall A (f : A -> bool) l, (List.length (filter f l) <= List.length l)%nat.
Proof. intros. induction l; simpl; auto. destruct (f a); simpl; lia. Qed.
Lemma filter_all : forall A (f : A -> bool) l, List.length (filter f l) = List.length l <-> forall x, In x l -> f x = true.
Proof.
  intros A f l. induction l as [|x l IH]; cbn [filter]; [split; [intros _ x []|auto]|].
  destruct (f x) eqn:E; cbn [List.length].
  - split.
    + intros H y [<-|Hy]; auto. apply IH; auto.
    + intros H. f_equal. apply IH. intros; apply H; now right.
  - split.
    + intros H. assert (Q := filter_le A f l). lia.
    + intros H. specialize (H x (or_introl eq_refl)). congruence.
Qed.
