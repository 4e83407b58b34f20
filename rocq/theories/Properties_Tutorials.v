(** Properties C57-C62: the test functions of the tutorials and their
    hand-coded gradients. *)
From Coq Require Import String Reals Lra Lia List Arith ZArith Bool.
From Verif Require Import Prelude Py NumArr M_Misc P_Misc M_Tutorials Deriv P_Tutorials.
Import ListNotations.
Open Scope R_scope.

(** the M-by-k array X with entry (i,j) replaced by t *)
Definition put (X : nd R) (M k i j : nat) (t : R) : nd R :=
  mk2 M k (fun a b => if (Nat.eqb a i && Nat.eqb b j)%bool then t else X.[a, b]).
(** entry (i,0) of the array a call returns *)
Definition out (r : res (nd R)) (i : nat) : R := match r with Ok F => F.[i, 0%nat] | Err _ => 0 end.

(** [f] maps M-by-k arrays to M-by-1 arrays, [g] to M-by-k arrays; a single
    point may be given as a 1-d array and the rows are handled one by one; and in
    every row that is [ok] the j-th entry of [g] is the partial derivative of [f]
    with respect to the j-th input of that row, the j in [cols]. *)
Definition is_gradient (f g : nd R -> res (nd R)) (k : nat) (cols : nat -> Prop) (ok : (nat -> R) -> Prop) : Prop :=
  forall M X, shape X = [M; k] ->
  exists F G, f X = Ok F /\ shape F = [M; 1%nat] /\ g X = Ok G /\ shape G = [M; k] /\
    forall i, (i < M)%nat ->
      (exists Fi Gi, f (mk1 k (fun j => X.[i, j])) = Ok Fi /\ g (mk1 k (fun j => X.[i, j])) = Ok Gi /\
        shape Fi = [1%nat; 1%nat] /\ shape Gi = [1%nat; k] /\
        Fi.[0%nat, 0%nat] = F.[i, 0%nat] /\ forall j, (j < k)%nat -> Gi.[0%nat, j] = G.[i, j]) /\
      (ok (fun j => X.[i, j]) -> forall j, (j < k)%nat -> cols j ->
        derivable_pt_lim (fun t => out (f (put X M k i j t)) i) (X.[i, j]) (G.[i, j])).

Definition in_cube (k : nat) (x : nat -> R) : Prop := forall j, (j < k)%nat -> -1 <= x j <= 1.
Definition all_cols (j : nat) : Prop := True.

Lemma unnorm_ok : forall xl xu X M, List.length xu = List.length xl -> shape X = [M; List.length xl] ->
  exists Y, unnorm xl xu X = Ok Y /\ shape Y = [M; List.length xl] /\
  forall i j, (i < M)%nat -> (j < List.length xl)%nat ->
    Y.[i, j] = (nth j xu 0 - nth j xl 0) * (X.[i, j] + 1) / 2 + nth j xl 0.
Proof.
  intros xl xu X M HL HX. unfold unnorm, np_array.
  set (lb := mk1 (List.length xl) (fun i => nth i xl 0)). set (ub := mk1 (List.length xu) (fun i => nth i xu 0)).
  assert (SL : size lb = List.length xl) by (unfold lb, size; simpl; lia).
  assert (SU : size ub = List.length xu) by (unfold ub, size; simpl; lia).
  destruct (bounded_init_ok lb ub ltac:(congruence)) as (s & E & S1 & S2 & S3). rewrite E. cbn [rbind].
  rewrite SL in *.
  destruct (bounded_unnormalize_ok s _ _ _ S1 S2 (fun j H => proj1 (S3 j H)) (fun j H => proj2 (S3 j H)) (amap Fin X) M HX)
    as (Y & Y1 & Y2 & Y3).
  rewrite Y1. cbn [rbind]. eexists. split; [reflexivity |]. split; [exact Y2 |]. intros i j Hi Hj.
  change ((amap fin_of Y).[i, j]) with (fin_of (Y.[i, j])). rewrite Y3 by auto.
  assert (FL : flat lb j = nth j xl 0) by (unfold lb, flat; cbn [shape mk1 unravel prodn]; rewrite Nat.div_1_r; reflexivity).
  assert (FU : flat ub j = nth j xu 0) by (unfold ub, flat; cbn [shape mk1 unravel prodn]; rewrite Nat.div_1_r; reflexivity).
  rewrite FL, FU. unfold amap; simpl at_. cbn [xadd xmul]. rewrite xdiv_fin by lra. cbn [xadd fin_of]. lra.
Qed.

Lemma at2_twice : forall (X : nd R), np_atleast_2d (np_atleast_2d X) = np_atleast_2d X.
Proof.
  intros X. unfold np_atleast_2d. destruct (shape X) as [|n [|m l]] eqn:E; try reflexivity. rewrite E. reflexivity.
Qed.

Section Lift.
  Variable inp : nd R -> res (nd R).
  Variables (row : (nat -> R) -> R) (grow : (nat -> R) -> list R).
  Variable k : nat.
  Variable tr : nat -> R -> R.
  Hypothesis Hinp : forall M X, shape X = [M; k] -> exists Y, inp X = Ok Y /\ shape Y = [M; k] /\
    forall i j, (i < M)%nat -> (j < k)%nat -> Y.[i, j] = tr j (X.[i, j]).
  Hypothesis Hrow : forall r r', (forall b, (b < k)%nat -> r b = r' b) -> row r = row r'.
  Hypothesis Hgrow : forall r r', (forall b, (b < k)%nat -> r b = r' b) -> grow r = grow r'.
  Variable f g : nd R -> res (nd R).
  Hypothesis Hf : forall X, f X = (do x <- inp (np_atleast_2d X); Ok (value_col row x)).
  Hypothesis Hg : forall X, g X = (do x <- inp (np_atleast_2d X); Ok (hstack_cols k grow x)).

  Lemma f_ok : forall M X, shape X = [M; k] -> exists F, f X = Ok F /\ shape F = [M; 1%nat] /\
    forall i, (i < M)%nat -> F.[i, 0%nat] = row (fun b => tr b (X.[i, b])).
  Proof.
    intros M X HX. rewrite Hf. unfold np_atleast_2d. rewrite HX.
    destruct (Hinp M X HX) as (Y & Y1 & Y2 & Y3). rewrite Y1. cbn [rbind]. eexists. split; [reflexivity |].
    unfold value_col, nrows. rewrite Y2. split; [reflexivity |]. intros i Hi. rewrite at_mk2 by (auto; lia).
    apply Hrow. intros b Hb. auto.
  Qed.
  Lemma g_ok : forall M X, shape X = [M; k] -> exists G, g X = Ok G /\ shape G = [M; k] /\
    forall i j, (i < M)%nat -> (j < k)%nat -> G.[i, j] = nth j (grow (fun b => tr b (X.[i, b]))) 0.
  Proof.
    intros M X HX. rewrite Hg. unfold np_atleast_2d. rewrite HX.
    destruct (Hinp M X HX) as (Y & Y1 & Y2 & Y3). rewrite Y1. cbn [rbind]. eexists. split; [reflexivity |].
    unfold hstack_cols, nrows. rewrite Y2. split; [reflexivity |]. intros i j Hi Hj. rewrite at_mk2 by auto.
    f_equal. apply Hgrow. intros b Hb. auto.
  Qed.

  Lemma lift_gradient_any : forall (h : nd R -> res (nd R)) (cols : nat -> Prop) (ok : (nat -> R) -> Prop),
    (forall X, h X = h (np_atleast_2d X)) ->
    (forall M X, shape X = [M; k] -> exists G, h X = Ok G /\ shape G = [M; k] /\
       forall i j, (i < M)%nat -> (j < k)%nat -> G.[i, j] = nth j (grow (fun b => tr b (X.[i, b]))) 0) ->
    (forall r j, ok r -> (j < k)%nat -> cols j ->
       derivable_pt_lim (fun t => row (fun b => tr b (if Nat.eqb b j then t else r b))) (r j)
         (nth j (grow (fun b => tr b (r b))) 0)) ->
    is_gradient f h k cols ok.
  Proof.
    intros h cols ok H2 g_ok' Hd M X HX.
    destruct (f_ok M X HX) as (F & F1 & F2 & F3). destruct (g_ok' M X HX) as (G & G1 & G2 & G3).
    exists F, G. repeat (split; [assumption |]). intros i Hi. split.
    - destruct (f_ok 1 (mk2 1 k (fun _ j => X.[i, j])) eq_refl) as (Fi & Fi1 & Fi2 & Fi3).
      destruct (g_ok' 1%nat (mk2 1 k (fun _ j => X.[i, j])) eq_refl) as (Gi & Gi1 & Gi2 & Gi3).
      exists Fi, Gi.
      assert (E : forall X', X' = mk2 1 k (fun _ j => X.[i, j]) -> np_atleast_2d (mk1 k (fun j => X.[i, j])) = np_atleast_2d X').
      { intros X' ->. reflexivity. }
      split. { rewrite Hf, (E _ eq_refl), <- Hf. exact Fi1. }
      split. { rewrite H2, (E _ eq_refl), <- H2. exact Gi1. }
      split; [exact Fi2 |]. split; [exact Gi2 |]. split.
      + rewrite Fi3, F3 by auto. apply Hrow. intros b Hb. reflexivity.
      + intros j Hj. rewrite Gi3, G3 by auto. f_equal. 
    - intros Hok j Hj Hc. rewrite G3 by auto.
      apply (D_ext (fun t => row (fun b => tr b (if Nat.eqb b j then t else X.[i, b])))).
      { exact (Hd (fun b => X.[i, b]) j Hok Hj Hc). }
      intros t. destruct (f_ok M (put X M k i j t) eq_refl) as (Ft & Ft1 & _ & Ft3). unfold out. rewrite Ft1, Ft3 by auto.
      apply Hrow. intros b Hb. f_equal. unfold put. rewrite at_mk2 by auto. rewrite Nat.eqb_refl. reflexivity.
  Qed.
  Lemma lift_gradient : forall (cols : nat -> Prop) (ok : (nat -> R) -> Prop),
    (forall r j, ok r -> (j < k)%nat -> cols j ->
       derivable_pt_lim (fun t => row (fun b => tr b (if Nat.eqb b j then t else r b))) (r j)
         (nth j (grow (fun b => tr b (r b))) 0)) ->
    is_gradient f g k cols ok.
  Proof.
    intros cols ok Hd. apply lift_gradient_any; auto using g_ok.
    intros X. rewrite !Hg. rewrite at2_twice. reflexivity.
  Qed.
End Lift.

(** one moving coordinate *)
Lemma total_zero : forall (g s d : list R), (forall i, nth i d 0 = 0) -> total g s d = 0.
Proof.
  induction g as [|a g IH]; intros [|s0 s] [|d0 d] H; simpl; auto.
  rewrite (IH s d) by (intros i; apply (H (S i))). rewrite (H 0%nat : d0 = 0). lra.
Qed.
Lemma total_one : forall (g s d : list R) j, List.length s = List.length g -> List.length d = List.length g ->
  (j < List.length g)%nat -> nth j s 0 <> 0 -> nth j d 0 = nth j s 0 ->
  (forall i, i <> j -> nth i d 0 = 0) -> total g s d = nth j g 0.
Proof.
  induction g as [|a g IH]; intros [|s0 s] [|d0 d] j Ls Ld Hj Hs Hd H0; simpl in *; try lia.
  destruct j as [|j]; simpl in *.
  - rewrite Hd, total_zero. field; auto. intros i. apply (H0 (S i)). lia.
  - rewrite (IH s d j); auto; try lia. rewrite (H0 0%nat : 0%nat <> S j -> d0 = 0) by lia. lra.
    intros i Hi. apply (H0 (S i)). lia.
Qed.
Definition speed (s : nat -> R) (j b : nat) : R := if Nat.eqb b j then s b else 0.
Lemma nth_map_seq : forall (h : nat -> R) n i, nth i (map h (seq 0 n)) 0 = if Nat.ltb i n then h i else 0.
Proof.
  intros h n i. destruct (Nat.ltb_spec i n).
  - rewrite (nth_indep _ 0 (h 0%nat)) by (rewrite map_length, seq_length; auto). rewrite map_nth, seq_nth by auto. reflexivity.
  - apply nth_overflow. rewrite map_length, seq_length. auto.
Qed.
Lemma total_speed : forall (g s : list R) n j, List.length g = n -> List.length s = n -> (j < n)%nat ->
  nth j s 0 <> 0 -> total g s (map (speed (fun b => nth b s 0) j) (seq 0 n)) = nth j g 0.
Proof.
  intros g s n j Lg Ls Hj Hs. apply total_one; rewrite ?map_length, ?seq_length; try lia; auto.
  - rewrite nth_map_seq. destruct (Nat.ltb_spec j n); [|lia]. unfold speed. rewrite Nat.eqb_refl. reflexivity.
  - intros i Hi. rewrite nth_map_seq. unfold speed. destruct (Nat.eqb_spec i j); [contradiction|]. destruct (Nat.ltb i n); reflexivity.
Qed.
Lemma moves_line : forall (tr : nat -> R -> R) (s : nat -> R) r j,
  D (tr j) (r j) (s j) ->
  moves (fun b t => tr b (if Nat.eqb b j then t else r b)) (speed s j) (r j).
Proof.
  intros tr s r j H b. unfold speed. destruct (Nat.eqb_spec b j) as [->|N]; [exact H | apply D_const].
Qed.

(** the transformation of the inputs by BoundedNormalizer.unnormalize *)
Definition affine_tr (xl xu : list R) (j : nat) (t : R) : R :=
  (nth j xu 0 - nth j xl 0) * (t + 1) / 2 + nth j xl 0.
Lemma affine_D : forall xl xu j t, D (affine_tr xl xu j) t ((nth j xu 0 - nth j xl 0) / 2).
Proof. intros. unfold affine_tr. deriv. lra. unfold Rsqr. field. Qed.
Lemma nth_halves : forall xl xu j, List.length xu = List.length xl -> nth j (halves xl xu) 0 = (nth j xu 0 - nth j xl 0) / 2.
Proof.
  induction xl as [|l xl IH]; intros [|u xu] j H; simpl in *; try discriminate; destruct j; simpl; auto; lra.
Qed.
Lemma len_halves : forall xl xu, List.length xu = List.length xl -> List.length (halves xl xu) = List.length xl.
Proof. induction xl as [|l xl IH]; intros [|u xu] H; simpl in *; try discriminate; auto. Qed.
Lemma affine_between : forall xl xu j t, nth j xl 0 < nth j xu 0 -> -1 <= t <= 1 ->
  nth j xl 0 <= affine_tr xl xu j t <= nth j xu 0.
Proof. intros xl xu j t H Ht. unfold affine_tr. nra. Qed.

Lemma box_gradient : forall xl xu row grow f g k (cols : nat -> Prop) (ok : (nat -> R) -> Prop), List.length xl = k -> List.length xu = k ->
  (forall j, (j < k)%nat -> nth j xl 0 < nth j xu 0) ->
  (forall r r', (forall b, (b < k)%nat -> r b = r' b) -> row r = row r') ->
  (forall r r', (forall b, (b < k)%nat -> r b = r' b) -> grow r = grow r') ->
  (forall r, List.length (grow r) = k) ->
  (forall X, f X = (do x <- unnorm xl xu (np_atleast_2d X); Ok (value_col row x))) ->
  (forall X, g X = (do x <- unnorm xl xu (np_atleast_2d X); Ok (hstack_cols k grow x))) ->
  (forall c d x, moves c d x -> ok (fun b => 2 * (c b x - nth b xl 0) / (nth b xu 0 - nth b xl 0) - 1) ->
     D (fun t => row (fun b => c b t)) x (total (grow (fun b => c b x)) (halves xl xu) (map d (seq 0 k)))) ->
  (forall r r', (forall b, (b < k)%nat -> r b = r' b) -> ok r -> ok r') ->
  is_gradient f g k cols ok.
Proof.
  intros xl xu row grow f g k cols ok Lk Lu Hb Hrow Hgrow Hlen Hf Hg HD Hok.
  apply (lift_gradient (unnorm xl xu) row grow k (affine_tr xl xu)); auto.
  - intros M X HX. subst k. destruct (unnorm_ok xl xu X M Lu HX) as (Y & Y1 & Y2 & Y3). exists Y. auto.
  - intros r j Hr Hj _.
    pose proof (affine_D xl xu j (r j)) as Ha.
    pose proof (moves_line (affine_tr xl xu) (fun b => nth b (halves xl xu) 0) r j) as Hm.
    cbv beta in Hm. rewrite nth_halves in Hm by congruence. specialize (Hm Ha).
    specialize (HD _ _ _ Hm).
    eapply D_eq.
    + apply HD. apply (Hok r); [| exact Hr]. intros b Hb'. cbv beta. 
      assert (E : (if Nat.eqb b j then r j else r b) = r b) by (destruct (Nat.eqb_spec b j); congruence). rewrite E.
      unfold affine_tr. specialize (Hb b Hb'). field. lra.
    + rewrite total_speed; auto. 2: rewrite len_halves; congruence.
      * f_equal. apply Hgrow. intros b Hb'.
        destruct (Nat.eqb_spec b j); congruence.
      * rewrite nth_halves by congruence. specialize (Hb j Hj). lra.
Qed.

Ltac same_row H := rewrite <- ?(H 0%nat), <- ?(H 1%nat), <- ?(H 2%nat), <- ?(H 3%nat), <- ?(H 4%nat), <- ?(H 5%nat),
  <- ?(H 6%nat), <- ?(H 7%nat), <- ?(H 8%nat), <- ?(H 9%nat) by lia; reflexivity.
Ltac box_cases := let j := fresh in intros j; do 10 (destruct j as [|j]; [simpl; lra |]); simpl; lra.

(** from the normalized to the physical inputs: positive bounds give positive inputs *)
Lemma box_pos : forall xl xu k (c : nat -> R -> R) x j, (j < k)%nat -> 0 < nth j xl 0 < nth j xu 0 ->
  in_cube k (fun b => 2 * (c b x - nth b xl 0) / (nth b xu 0 - nth b xl 0) - 1) -> 0 < c j x.
Proof.
  intros xl xu k c x j Hj [H1 H2] H. specialize (H j Hj). cbv beta in H.
  assert (W : 0 < nth j xu 0 - nth j xl 0) by lra.
  assert (E : 2 * (c j x - nth j xl 0) / (nth j xu 0 - nth j xl 0) * (nth j xu 0 - nth j xl 0) = 2 * (c j x - nth j xl 0)) by (field; lra).
  nra.
Qed.
Lemma cube_ext : forall k r r', (forall b, (b < k)%nat -> r b = r' b) -> in_cube k r -> in_cube k r'.
Proof. intros k r r' E H j Hj. rewrite <- E by auto. auto. Qed.

Theorem C57_circuit_grad : is_gradient circuit circuit_grad 6 all_cols (in_cube 6).
Proof.
  apply (box_gradient otl_xl otl_xu circuit_row circuit_grad_row); try reflexivity.
  - intros j Hj. do 6 (destruct j as [|j]; [simpl; lra |]). lia.
  - intros r r' H. unfold circuit_row. same_row H.
  - intros r r' H. unfold circuit_grad_row. same_row H.
  - intros c d x Hm Hc. apply (circuit_total c d x Hm). intros k Hk.
    apply (box_pos otl_xl otl_xu 6 c x k Hk); auto. do 6 (destruct k as [|k]; [simpl; lra |]). lia.
  - apply cube_ext.
Qed.
Print Assumptions C57_circuit_grad.

Theorem C58_piston_grad : is_gradient piston piston_grad 7 all_cols (in_cube 7).
Proof.
  apply (box_gradient piston_xl piston_xu piston_row piston_grad_row); try reflexivity.
  - intros j Hj. do 7 (destruct j as [|j]; [simpl; lra |]). lia.
  - intros r r' H. unfold piston_row. same_row H.
  - intros r r' H. unfold piston_grad_row. same_row H.
  - intros c d x Hm Hc. apply (piston_total c d x Hm). intros k Hk.
    apply (box_pos piston_xl piston_xu 7 c x k Hk); auto. do 7 (destruct k as [|k]; [simpl; lra |]). lia.
  - apply cube_ext.
Qed.
Print Assumptions C58_piston_grad.

(** rows of borehole: the last six inputs in [-1,1]; the radius rw of the hole
    is positive and smaller than the radius of influence r *)
Definition bore_ok (x : nat -> R) : Prop :=
  (forall j, (2 <= j < 8)%nat -> -1 <= x j <= 1) /\
  0 < 161812/10000000 * x 0%nat + 1/10 < exp (10056/10000 * x 1%nat + 771/100).
Definition bore_tr (j : nat) (t : R) : R :=
  if Nat.eqb j 0 then 161812/10000000 * t + 1/10 else
  if Nat.eqb j 1 then exp (10056/10000 * t + 771/100) else affine_tr bore_xl bore_xu (j - 2) t.

Lemma bore_inputs_ok : forall M X, shape X = [M; 8%nat] -> exists Y, bore_inputs X = Ok Y /\ shape Y = [M; 8%nat] /\
  forall i j, (i < M)%nat -> (j < 8)%nat -> Y.[i, j] = bore_tr j (X.[i, j]).
Proof.
  intros M X HX. unfold bore_inputs, np_atleast_2d. rewrite HX.
  destruct (unnorm_ok bore_xl bore_xu (mk2 M 6 (fun i j => X.[i, (j + 2)%nat])) M eq_refl eq_refl) as (Y & Y1 & Y2 & Y3).
  cbv zeta. rewrite HX. change (8 - 2)%nat with 6%nat.
  rewrite Y1. cbn [rbind]. unfold ncols. rewrite Y2. simpl Nat.eqb. cbn [negb]. eexists. split; [reflexivity |]. split; [reflexivity |].
  intros i j Hi Hj. unfold bore_tr. rewrite at_mk2 by auto.
  destruct (Nat.eqb_spec j 1) as [->|N1].
  - simpl Nat.eqb. cbv iota. rewrite at_mk2 by (auto; lia). simpl Nat.eqb. cbv iota. rewrite at_mk2 by (auto; lia). reflexivity.
  - rewrite at_mk2 by auto. destruct (Nat.eqb_spec j 0) as [->|N0].
    + rewrite at_mk2 by (auto; lia). reflexivity.
    + rewrite at_mk2 by auto. destruct (Nat.leb_spec 2 j); [|lia].
      rewrite Y3 by (simpl; lia). rewrite at_mk2 by lia. unfold affine_tr. replace (j - 2 + 2)%nat with j by lia. reflexivity.
Qed.

Lemma bore_twice : forall X, bore_inputs X = bore_inputs (np_atleast_2d X).
Proof. intros X. unfold bore_inputs. rewrite at2_twice. reflexivity. Qed.

Theorem C59_borehole_grad : is_gradient borehole borehole_grad 8 all_cols bore_ok.
Proof.
  apply (lift_gradient bore_inputs borehole_row borehole_grad_row 8 bore_tr).
  - exact bore_inputs_ok.
  - intros r r' H. unfold borehole_row. same_row H.
  - intros r r' H. unfold borehole_grad_row. same_row H.
  - intros X. unfold borehole. rewrite bore_twice. reflexivity.
  - intros X. unfold borehole_grad. rewrite bore_twice. reflexivity.
  - intros r j [Hr1 Hr2] Hj _.
    set (s := bore_scales (fun b _ => bore_tr b (r b)) 0).
    assert (Ls : List.length s = 8%nat) by reflexivity.
    assert (Ha : D (bore_tr j) (r j) (nth j s 0)).
    { unfold s, bore_scales. destruct j as [|[|j]].
      - unfold bore_tr. simpl Nat.eqb. cbv iota. deriv. simpl. lra.
      - unfold bore_tr. simpl Nat.eqb. cbv iota. deriv. simpl. lra.
      - cbn [nth]. rewrite nth_halves by reflexivity. unfold bore_tr. simpl Nat.eqb. cbv iota. simpl Nat.sub. rewrite Nat.sub_0_r.
        apply affine_D. }
    assert (E : forall b, (if Nat.eqb b j then r j else r b) = r b) by (intros b; destruct (Nat.eqb_spec b j); congruence).
    pose proof (moves_line bore_tr (fun b => nth b s 0) r j Ha) as Hm.
    eapply D_eq.
    + apply (borehole_total _ _ _ Hm).
      * intros b Hb. rewrite E. unfold bore_tr. destruct b as [|[|b]]; try lia. simpl Nat.eqb. cbv iota. simpl Nat.sub. rewrite Nat.sub_0_r.
        pose proof (affine_between bore_xl bore_xu b (r (S (S b)))) as A. specialize (Hr1 (S (S b)) Hb).
        do 6 (destruct b as [|b]; [simpl in A; specialize (A ltac:(lra) Hr1); lra |]). lia.
      * rewrite !E. unfold bore_tr. simpl Nat.eqb. cbv iota. exact Hr2.
    + assert (Es : bore_scales (fun b t => bore_tr b (if Nat.eqb b j then t else r b)) (r j) = s).
      { unfold s, bore_scales. rewrite E. reflexivity. }
      rewrite Es, total_speed; auto.
      * f_equal. unfold borehole_grad_row. rewrite !E. reflexivity.
      * unfold s, bore_scales. destruct j as [|[|j]]; [simpl; lra | |].
        -- unfold bore_tr. simpl. pose proof (exp_pos (10056/10000 * r 1%nat + 771/100)). lra.
        -- cbn [nth]. rewrite nth_halves by reflexivity. do 6 (destruct j as [|j]; [simpl; lra |]). lia.
Qed.
Print Assumptions C59_borehole_grad.

Theorem C60_wing_grad : is_gradient wing wing_grad 10 all_cols (in_cube 10).
Proof.
  apply (box_gradient wing_xl wing_xu wing_row wing_grad_row); try reflexivity.
  - intros j Hj. do 10 (destruct j as [|j]; [simpl; lra |]). lia.
  - intros r r' H. unfold wing_row, wing_Q. same_row H.
  - intros r r' H. unfold wing_grad_row, wing_partials, wing_Q. same_row H.
  - intros c d x Hm Hc. apply (wing_total c d x Hm).
    + intros k Hk N3. apply (box_pos wing_xl wing_xu 10 c x k Hk); auto. do 10 (destruct k as [|k]; [simpl; try lra; lia |]). lia.
    + specialize (Hc 3%nat ltac:(lia)). cbv beta in Hc. simpl in Hc. pose proof PI_RGT_0 as PP.
      apply cos_gt_0; nra.
  - apply cube_ext.
Qed.
Print Assumptions C60_wing_grad.

(** the end of the arm: segments of length (x_{4+i}+1)/2, turned by the angles
    pi*(x_i+1) *)
Definition seg_len (x : nat -> R) (i : nat) : R := (x (4 + i)%nat + 1) / 2.
Definition seg_angle (x : nat -> R) (i : nat) : R := sumf (S i) (fun a => PI * (x a + 1)).
Definition arm_end (x : nat -> R) : R * R :=
  (sumf 4 (fun i => seg_len x i * cos (seg_angle x i)), sumf 4 (fun i => seg_len x i * sin (seg_angle x i))).

Lemma robot_uv : forall (c : nat -> R -> R) x,
  arm_end (fun b => 2 * (c b x - nth b robot_xl 0) / (nth b robot_xu 0 - nth b robot_xl 0) - 1)
    = (robot_u (fun b => c b x), robot_v (fun b => c b x)).
Proof.
  intros c x. pose proof PI_RGT_0 as PP. unfold arm_end, robot_u, robot_v, seg_len, seg_angle.
  cbn [sumf Nat.add nth robot_xl robot_xu].
  assert (E : forall t, PI * (2 * (t - 0) / (2 * PI - 0) - 1 + 1) = t) by (intros; field; lra).
  assert (F : forall t, (2 * (t - 0) / (1 - 0) - 1 + 1) / 2 = t) by (intros; field).
  rewrite !E, !F, !Rplus_0_l. reflexivity.
Qed.

Theorem C61_robot_grad : is_gradient robot robot_grad 8 all_cols (fun x => arm_end x <> (0, 0)).
Proof.
  pose proof PI_RGT_0 as PP.
  apply (box_gradient robot_xl robot_xu robot_row robot_grad_row); try reflexivity.
  - intros j Hj. do 8 (destruct j as [|j]; [simpl; lra |]). lia.
  - intros r r' H. unfold robot_row, robot_u, robot_v. same_row H.
  - intros r r' H. unfold robot_grad_row, robot_u, robot_v. same_row H.
  - intros c d x Hm Hc. rewrite robot_uv in Hc. apply (robot_total c d x Hm).
    set (u := robot_u (fun k => c k x)) in *. set (v := robot_v (fun k => c k x)) in *.
    destruct (Req_dec u 0) as [U|U]; destruct (Req_dec v 0) as [V|V]; try nra.
    exfalso. apply Hc. rewrite U, V. reflexivity.
  - intros r r' H Hr E. apply Hr. rewrite <- E. unfold arm_end, seg_len, seg_angle. cbn [sumf Nat.add]. same_row H.
Qed.
Print Assumptions C61_robot_grad.

(** the unnormalized wing function: positive inputs, sweep angle (degrees) with
    positive cosine *)
Definition wing_ok (x : nat -> R) : Prop :=
  (forall j, (j < 10)%nat -> j <> 3%nat -> 0 < x j) /\ 0 < cos (x 3%nat * PI / 180).
(** wing_grad with the column of the sweep angle multiplied by pi/180 *)
Definition wing_grad_degrees (X : nd R) : res (nd R) :=
  do G <- tut_wing_grad X; Ok (mk2 (nrows G) (ncols G) (fun i j => if Nat.eqb j 3 then PI / 180 * G.[i, j] else G.[i, j])).

Lemma ten_ok : forall M (X : nd R), shape X = [M; 10%nat] -> exists Y, ten_columns X = Ok Y /\ shape Y = [M; 10%nat] /\
  forall i j, (i < M)%nat -> (j < 10)%nat -> Y.[i, j] = X.[i, j].
Proof. intros M X HX. unfold ten_columns. rewrite HX. simpl. exists X. auto. Qed.

Definition degrees_row (x : nat -> R) : list R :=
  map (fun j => if Nat.eqb j 3 then PI / 180 * nth j (wing_partials x) 0 else nth j (wing_partials x) 0) (seq 0 10).
Lemma degrees_total : forall c d x, moves c d x -> wing_ok (fun b => c b x) ->
  D (fun t => wing_row (fun b => c b t)) x (total (degrees_row (fun b => c b x)) (repeat 1 10) (map d (seq 0 10))).
Proof.
  intros c d x Hm [P P3]. unfold wing_row.
  pose proof (wing_Q_deriv c d x Hm ltac:(auto) P3) as HQ. pose proof (Hm 0%nat) as H0. pose proof (Hm 9%nat) as H9.
  deriv2.
  assert (P0 := P 0%nat ltac:(lia) ltac:(lia)). assert (P1 := P 1%nat ltac:(lia) ltac:(lia)). assert (P2 := P 2%nat ltac:(lia) ltac:(lia)).
  assert (P4 := P 4%nat ltac:(lia) ltac:(lia)). assert (P5 := P 5%nat ltac:(lia) ltac:(lia)).
  assert (P6 := P 6%nat ltac:(lia) ltac:(lia)). assert (P7 := P 7%nat ltac:(lia) ltac:(lia)). assert (P8 := P 8%nat ltac:(lia) ltac:(lia)).
  unfold degrees_row. cbn [total repeat wing_partials map seq nth Nat.eqb]. cbv zeta. generalize (wing_Q (fun b => c b x)). intros q.
  field. repeat split; lra.
Qed.

Lemma id_moves : forall (r : nat -> R) j, moves (fun b t => if Nat.eqb b j then t else r b) (speed (fun b => nth b (repeat 1 10) 0) j) (r j) \/ (10 <= j)%nat.
Proof.
  intros r j. destruct (Nat.lt_ge_cases j 10) as [H|H]; [left | right; auto].
  apply (moves_line (fun _ t => t)). eapply D_eq; [apply D_id |]. do 10 (destruct j as [|j]; [reflexivity |]). lia.
Qed.
Lemma degrees_one : forall r j, wing_ok r -> (j < 10)%nat ->
  D (fun t => wing_row (fun b => if Nat.eqb b j then t else r b)) (r j) (nth j (degrees_row r) 0).
Proof.
  intros r j Hr Hj. destruct (id_moves r j) as [Hm|]; [|lia].
  assert (E : forall b, (if Nat.eqb b j then r j else r b) = r b) by (intros b; destruct (Nat.eqb_spec b j); congruence).
  eapply D_eq.
  - apply (degrees_total _ _ _ Hm). unfold wing_ok in *. rewrite E. destruct Hr as [Hr1 Hr2]. split; auto.
    intros b Hb N. rewrite E. auto.
  - rewrite total_speed; auto.
    + f_equal. unfold degrees_row, wing_partials, wing_Q. rewrite !E. reflexivity.
    + do 10 (destruct j as [|j]; [simpl; lra |]). lia.
Qed.

(** [_partial]: the column of the sweep angle is the derivative with respect to
    the angle in radians, although the input is in degrees *)
Theorem C62_tutorial_wing_partial :
  is_gradient tut_wing tut_wing_grad 10 (fun j => j <> 3%nat) wing_ok /\
  is_gradient tut_wing wing_grad_degrees 10 all_cols wing_ok.
Proof.
  assert (R1 : forall r r', (forall b, (b < 10)%nat -> r b = r' b) -> wing_row r = wing_row r').
  { intros r r' H. unfold wing_row, wing_Q. same_row H. }
  assert (R2 : forall r r', (forall b, (b < 10)%nat -> r b = r' b) -> wing_partials r = wing_partials r').
  { intros r r' H. unfold wing_partials, wing_Q. same_row H. }
  split.
  - apply (lift_gradient ten_columns wing_row wing_partials 10 (fun _ t => t)); try reflexivity; auto using ten_ok.
    intros r j Hr Hj N. pose proof (degrees_one r j Hr Hj) as HD. eapply D_eq; [exact HD |].
    unfold degrees_row. rewrite nth_map_seq. destruct (Nat.ltb_spec j 10); [|lia]. destruct (Nat.eqb_spec j 3); [contradiction | reflexivity].
  - assert (R3 : forall r r', (forall b, (b < 10)%nat -> r b = r' b) -> degrees_row r = degrees_row r').
    { intros r r' H. unfold degrees_row. rewrite (R2 r r' H). reflexivity. }
    apply (lift_gradient_any ten_columns wing_row degrees_row 10 (fun _ t => t) ten_ok R1 tut_wing); auto.
    + intros X. unfold wing_grad_degrees, tut_wing_grad. rewrite at2_twice. reflexivity.
    + intros M X HX. unfold wing_grad_degrees.
      destruct (g_ok ten_columns wing_partials 10 (fun _ t => t) ten_ok R2 tut_wing_grad ltac:(reflexivity) M X HX) as (G & G1 & G2 & G3).
      rewrite G1. cbn [rbind]. eexists. split; [reflexivity |]. unfold nrows, ncols. rewrite G2. split; [reflexivity |].
      intros i j Hi Hj. rewrite at_mk2 by auto. unfold degrees_row. rewrite nth_map_seq. destruct (Nat.ltb_spec j 10); [|lia].
      rewrite G3 by auto. reflexivity.
    + intros r j Hr Hj _. apply degrees_one; auto.
Qed.
Print Assumptions C62_tutorial_wing_partial.

(** the point of the box with all inputs in the middle but the sweep angle, 10
    degrees *)
Definition wing_pt : nd R := mk2 1 10 (fun _ j => nth j [175; 260; 8; 10; 30; 3/4; 13/100; 4; 2100; 5/100] 0).
Lemma wing_pt_ok : wing_ok (fun j => wing_pt.[0%nat, j]).
Proof.
  pose proof PI_RGT_0 as PP. split.
  - intros j Hj N. unfold wing_pt. rewrite at_mk2 by lia. do 10 (destruct j as [|j]; [simpl; try lra; lia |]). lia.
  - unfold wing_pt. rewrite at_mk2 by lia. simpl. apply cos_gt_0; lra.
Qed.

Theorem C62_refuted : ~ is_gradient tut_wing tut_wing_grad 10 all_cols wing_ok.
Proof.
  intros H. pose proof PI_RGT_0 as PP.
  destruct (H 1%nat wing_pt eq_refl) as (F & G & _ & _ & G1 & _ & HG). destruct (HG 0%nat ltac:(lia)) as [_ HD].
  specialize (HD wing_pt_ok 3%nat ltac:(lia) I).
  destruct (proj2 C62_tutorial_wing_partial 1%nat wing_pt eq_refl) as (F' & G' & _ & _ & G1' & _ & HG').
  destruct (HG' 0%nat ltac:(lia)) as [_ HD']. specialize (HD' wing_pt_ok 3%nat ltac:(lia) I).
  pose proof (uniqueness_limite _ _ _ _ HD HD') as E.
  unfold wing_grad_degrees in G1'. rewrite G1 in G1'. cbn [rbind] in G1'. injection G1' as <-.
  injection G1 as <-. unfold hstack_cols in E. rewrite !at_mk2 in E by (unfold nrows, ncols; simpl; lia).
  simpl Nat.eqb in E. cbv iota in E. change (np_atleast_2d wing_pt) with wing_pt in E.
  set (q := nth 3 (wing_partials (fun j => wing_pt.[0%nat, j])) 0) in E.
  assert (Q : 0 < q).
  { unfold q, wing_partials. cbn [nth]. pose proof (proj2 wing_pt_ok) as C. cbv beta in C.
    apply Rdiv_lt_0_compat; [|exact C]. apply Rmult_lt_0_compat.
    - apply Rmult_lt_0_compat; [lra |]. unfold wing_Q. cbv zeta.
      pose proof (proj1 wing_pt_ok) as P. cbv beta in P.
      repeat (apply Rmult_lt_0_compat; [| apply fpow_gt0; first [exact C | apply P; lia | lra]]). lra.
    - unfold wing_pt. rewrite at_mk2 by lia. simpl. apply sin_gt_0; lra. }
  pose proof PI_4 as P4. assert (PI / 180 * q <= 4 / 180 * q) by (apply Rmult_le_compat_r; lra). lra.
Qed.
Print Assumptions C62_refuted.

(** concrete points *)
Definition mid (k : nat) : nd R := mk2 1 k (fun _ _ => 0).
Example C57_case : in_cube 6 (fun j => (mid 6).[0%nat, j]) /\ exists F, circuit (mid 6) = Ok F /\ F.[0%nat, 0%nat] <> 0.
Proof.
  split. { intros j Hj. unfold mid. rewrite at_mk2 by lia. lra. }
  destruct (f_ok (unnorm otl_xl otl_xu) circuit_row 6 (affine_tr otl_xl otl_xu)) with (f := circuit) (M := 1%nat) (X := mid 6) as (F & F1 & _ & F3);
    try reflexivity.
  - intros M X HX. destruct (unnorm_ok otl_xl otl_xu X M eq_refl HX) as (Y & Y1 & Y2 & Y3). exists Y. auto.
  - intros r r' H. unfold circuit_row. same_row H.
  - exists F. split; [exact F1 |]. rewrite F3 by lia. unfold circuit_row, affine_tr, mid. cbv zeta.
    rewrite !at_mk2 by lia. simpl. lra.
Qed.
Example C58_case : in_cube 7 (fun j => (mid 7).[0%nat, j]).
Proof. intros j Hj. unfold mid. rewrite at_mk2 by lia. lra. Qed.
(** every row with both random inputs at most six standard deviations off *)
Example C59_case : forall x, (forall j, (2 <= j < 8)%nat -> -1 <= x j <= 1) -> -6 <= x 0%nat <= 6 -> -6 <= x 1%nat <= 6 -> bore_ok x.
Proof.
  intros x H H0 H1. split; [exact H |]. split; [lra |].
  pose proof (exp_ineq1_le (10056/10000 * x 1%nat + 771/100)). lra.
Qed.
Example C60_case : in_cube 10 (fun j => if Nat.even j then 1 else -1).
Proof. intros j Hj. destruct (Nat.even j); lra. Qed.
(** the arm stretched out along one line *)
Example C61_case : arm_end (fun j => if Nat.ltb j 4 then 1 else 1/2) <> (0, 0).
Proof.
  unfold arm_end, seg_len, seg_angle. cbn [sumf Nat.add Nat.ltb Nat.leb]. intros E. injection E as E _.
  assert (C : forall n, cos (0 + 2 * INR n * PI) = 1) by (intros n; rewrite cos_period; apply cos_0).
  pose proof (C 1%nat) as C1. pose proof (C 2%nat) as C2. pose proof (C 3%nat) as C3. pose proof (C 4%nat) as C4. simpl INR in *.
  replace (0 + PI * (1 + 1)) with (0 + 2 * 1 * PI) in E by ring.
  replace (0 + 2 * 1 * PI + PI * (1 + 1)) with (0 + 2 * (1 + 1) * PI) in E by ring.
  replace (0 + 2 * (1 + 1) * PI + PI * (1 + 1)) with (0 + 2 * (1 + 1 + 1) * PI) in E by ring.
  replace (0 + 2 * (1 + 1 + 1) * PI + PI * (1 + 1)) with (0 + 2 * (1 + 1 + 1 + 1) * PI) in E by ring.
  rewrite C1, C2, C3, C4 in E. lra.
Qed.
Example C62_case : wing_ok (fun j => wing_pt.[0%nat, j]).
Proof. exact wing_pt_ok. Qed.
