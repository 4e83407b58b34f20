(** Final statements for gradients.py: C07-C09. *)
From Coq Require Import Reals Lra Lia List Arith ZArith String Bool Permutation Sorted.
From Verif Require Import Prelude Py NumArr LinAlg Lsq Sorting M_Misc M_SimRunners M_Gradients
  P_Misc P_SimRunners P_Gradients P_LocalLinear Toy.
Import ListNotations.
Open Scope R_scope.

(** C07.  The simulation is called (C05) on the rows of XX and nowhere else;
    [moved X i h k] is sample i moved by h along coordinate k. *)
Theorem C07_difference_quotients : forall (G : gen) (U : Type) (f : ufun (U:=U) (nd R) (nd R)) X M m h,
  shape X = [M; m] -> h <> 0 -> exists XX,
  (shape XX = [((m + 1) * M)%nat; m] /\
   (forall i j, (i < M)%nat -> (j < m)%nat -> XX.[i, j] = X.[i, j]) /\
   (forall i k j, (i < M)%nat -> (k < m)%nat -> (j < m)%nat ->
      XX.[((k + 1) * M + i)%nat, j] = X.[i, j] + (if Nat.eqb j k then h else 0))) /\
  forall w : world G U (nd R), match sim_run f XX w with
    | (Ok F, w1) => exists D, finite_difference_gradients X (IsA f) h w = (Ok D, w1) /\ shape D = [M; m] /\
        forall i k, (i < M)%nat -> (k < m)%nat ->
          D.[i, k] = (F.[((k + 1) * M + i)%nat, 0%nat] - F.[i, 0%nat]) / h
    | (Err e, w1) => finite_difference_gradients X (IsA f) h w = (Err e, w1)
    end.
Proof. intros G U f X M m h HX _. exact (fd_eval f X M m h HX). Qed.
Print Assumptions C07_difference_quotients.

Theorem C07_pure_function : forall (G : gen) (U : Type) (f : ufun (U:=U) (nd R) (nd R)) X M m h
    (w : world G U (nd R)) (g : (nat -> R) -> R), shape X = [M; m] -> h <> 0 ->
  (forall x y, (forall j, (j < m)%nat -> x j = y j) -> g x = g y) ->
  (forall x u, f x u = (Ok (ND [] (fun _ => g (fun j => x.[0%nat, j]))), u)) ->
  exists D w', finite_difference_gradients X (IsA f) h w = (Ok D, w') /\ shape D = [M; m] /\
    forall i k, (i < M)%nat -> (k < m)%nat ->
      D.[i, k] = (g (fun j => X.[i, j] + (if Nat.eqb j k then h else 0)) - g (fun j => X.[i, j])) / h.
Proof. intros G U f X M m h w g HX _. now apply fd_pure. Qed.
Print Assumptions C07_pure_function.

Theorem C07_exact_for_affine : forall (G : gen) (U : Type) (f : ufun (U:=U) (nd R) (nd R)) X M m h
    (w : world G U (nd R)) a b, shape X = [M; m] -> h <> 0 ->
  (forall x u, f x u = (Ok (ND [] (fun _ => a + sumf m (fun j => b j * x.[0%nat, j]))), u)) ->
  exists D w', finite_difference_gradients X (IsA f) h w = (Ok D, w') /\ shape D = [M; m] /\
    forall i k, (i < M)%nat -> (k < m)%nat -> D.[i, k] = b k.
Proof.
  intros G U f X M m h w a b HX Hh Hf.
  destruct (fd_pure f X M m h w (affine_fn m a b) HX) as (D & w' & E1 & E2 & E3).
  - intros x y Hxy. unfold affine_fn. f_equal. apply sumf_ext. intros j Hj. now rewrite Hxy.
  - exact Hf.
  - exists D, w'. repeat split; auto. intros i k Hi Hk. rewrite E3 by auto. now apply affine_quotient.
Qed.
Print Assumptions C07_exact_for_affine.

Theorem C07_error_for_quadratic : forall (G : gen) (U : Type) (f : ufun (U:=U) (nd R) (nd R)) X M m h
    (w : world G U (nd R)) a b H, shape X = [M; m] -> h <> 0 ->
  (forall p q, (p < m)%nat -> (q < m)%nat -> H p q = H q p) ->
  (forall x u, f x u = (Ok (ND [] (fun _ => a + sumf m (fun j => b j * x.[0%nat, j])
      + / 2 * sumf m (fun i => sumf m (fun j => H i j * x.[0%nat, i] * x.[0%nat, j])))), u)) ->
  exists D w', finite_difference_gradients X (IsA f) h w = (Ok D, w') /\ shape D = [M; m] /\
    forall i k, (i < M)%nat -> (k < m)%nat ->
      D.[i, k] - (b k + sumf m (fun q => H k q * X.[i, q])) = h * H k k / 2.
Proof.
  intros G U f X M m h w a b H HX Hh HS Hf.
  destruct (fd_pure f X M m h w (quadratic_fn m a b H) HX) as (D & w' & E1 & E2 & E3).
  - intros x y Hxy. unfold quadratic_fn. f_equal; [f_equal|f_equal].
    + apply sumf_ext. intros j Hj. now rewrite Hxy.
    + apply sumf_ext. intros i Hi. apply sumf_ext. intros j Hj. now rewrite (Hxy i), (Hxy j).
  - exact Hf.
  - exists D, w'. repeat split; auto. intros i k Hi Hk. rewrite E3, quadratic_quotient by auto. ring.
Qed.
Print Assumptions C07_error_for_quadratic.

Theorem C07_converges_to_gradient : forall (G : gen) (U : Type) (f : ufun (U:=U) (nd R) (nd R)) X M m
    (w : world G U (nd R)) (g : (nat -> R) -> R) i k l, shape X = [M; m] -> (i < M)%nat -> (k < m)%nat ->
  (forall x y, (forall j, (j < m)%nat -> x j = y j) -> g x = g y) ->
  (forall x u, f x u = (Ok (ND [] (fun _ => g (fun j => x.[0%nat, j]))), u)) ->
  derivable_pt_lim (fun t => g (fun j => X.[i, j] + (if Nat.eqb j k then t else 0))) 0 l ->
  forall eps, 0 < eps -> exists delta, 0 < delta /\ forall h, h <> 0 -> Rabs h < delta ->
    exists D w', finite_difference_gradients X (IsA f) h w = (Ok D, w') /\ Rabs (D.[i, k] - l) < eps.
Proof.
  intros G U f X M m w g i k l HX Hi Hk Hg Hf HD eps He.
  destruct (quotient_limit g X i k l) with (eps := eps) as (delta & Hd & HL); auto.
  exists delta. split; auto. intros h Hh Hl.
  destruct (fd_pure f X M m h w g HX Hg Hf) as (D & w' & E1 & E2 & E3).
  exists D, w'. split; auto. rewrite E3 by auto. now apply HL.
Qed.
Print Assumptions C07_converges_to_gradient.

(** f(x) = 1 + 2 x_0 - x_1 at two points with h = 1/10 *)
Definition aff_sim : ufun (U:=unit) (nd R) (nd R) := fun x u =>
  (Ok (ND [] (fun _ => 1 + sumf 2 (fun j => (match j with O => 2 | _ => -1 end) * x.[0%nat, j]))), u).
Example C07_case : exists D w',
  finite_difference_gradients (mat_of [[1; 2]; [3; 4]]) (IsA aff_sim) (/ 10) (toy_world (L:=nd R) tt) = (Ok D, w') /\
  D.[0%nat, 0%nat] = 2 /\ D.[1%nat, 1%nat] = -1.
Proof.
  destruct (C07_exact_for_affine toy_gen unit aff_sim (mat_of [[1; 2]; [3; 4]]) 2 2 (/ 10) (toy_world tt) 1
     (fun j => match j with O => 2 | _ => -1 end)) as (D & w' & E1 & E2 & E3); auto; try lra.
  exists D, w'. split; auto. split; [now apply (E3 0%nat 0%nat); lia|now apply (E3 1%nat 1%nat); lia].
Qed.

(** C08.  argsort is any sorting permutation, lstsq any least-squares solver. *)
Theorem C08_exact_on_affine_data : forall argsort lstsq (G : gen) (U : Type) X f p weights M m
    (w : world G U (nd R)) df w' a b,
  argsort_contract argsort -> lstsq_contract lstsq ->
  shape X = [M; m] -> shape f = [M; 1%nat] ->
  match weights with None => True | Some wt => shape wt = [M; 1%nat] /\ forall i, (i < M)%nat -> 0 < wt.[i, 0%nat] end ->
  (forall i, (i < M)%nat -> f.[i, 0%nat] = a + sumf m (fun j => b j * X.[i, j])) ->
  (* the number of neighbours in use, and any that many samples determine an affine function *)
  (forall q, (m < q <= M)%nat ->
     (exists z, p = Some (IsA z) /\ Z.to_nat z = q) \/ (p = None /\ q = Nat.min (17 * m / 10) M) ->
     forall l, NoDup l -> List.length l = q -> (forall k, In k l -> (k < M)%nat) ->
       full_rank q (S m) (fun i j => match j with O => 1 | S k => X.[nth i l 0%nat, k] end)) ->
  local_linear_gradients argsort lstsq X f p weights w = (Ok df, w') ->
  exists MM, shape df = [MM; m] /\ forall i j, (i < MM)%nat -> (j < m)%nat -> df.[i, j] = b j.
Proof.
  intros argsort lstsq G U X f p weights M m w df w' a b HA HL HX Hf Hw Hd Hg H.
  exact (ll_affine argsort HA lstsq HL X f p weights M m w df w' a b HX Hf Hw Hd Hg H).
Qed.
Print Assumptions C08_exact_on_affine_data.

Theorem C08_returns : forall argsort lstsq (G : gen) (U : Type) X f weights M m z (w : world G U (nd R)),
  argsort_contract argsort -> lstsq_total lstsq ->
  shape X = [M; m] -> shape f = [M; 1%nat] -> (0 < m < M)%nat ->
  (Z.of_nat m + 1 <= z < Z.of_nat M)%Z ->
  match weights with None => True | Some wt => shape wt = [M; 1%nat] /\ forall i, (i < M)%nat -> 0 < wt.[i, 0%nat] end ->
  distinct_rows X M ->
  exists df w', local_linear_gradients argsort lstsq X f (Some (IsA z)) weights w = (Ok df, w').
Proof.
  intros argsort lstsq G U X f weights M m z w HA HT HX Hf Hm Hz Hw HD.
  apply (ll_returns argsort HA lstsq X f _ weights M m z w); auto; try lia.
  intros c Hc. destruct (ll_ind_distinct argsort X M m c HA HX Hc HD) as (s & [P _] & E).
  pose proof (ll_ind_length argsort HA X c) as L. rewrite (nrows_shape2 _ _ _ _ HX) in L. rewrite <- L, E.
  assert (LS : List.length s = M) by (rewrite (Permutation_length P), seq_length; auto).
  rewrite app_length, firstn_length_le, skipn_length by lia. lia.
Qed.
Print Assumptions C08_returns.

(** one estimated gradient per drawn point, ceil(10 m ln m) of them but at most M - 1 *)
Theorem C08_row_count : forall argsort lstsq (G : gen) (U : Type) X f p weights M m (w : world G U (nd R)) df w',
  shape X = [M; m] -> local_linear_gradients argsort lstsq X f p weights w = (Ok df, w') ->
  exists K, 10 * INR m * ln (INR m) <= INR K < 10 * INR m * ln (INR m) + 1 /\ shape df = [Nat.min K (M - 1); m].
Proof.
  intros argsort lstsq G U X f p weights M m w df w' HX H.
  destruct (ll_inv argsort lstsq X f p weights M m w df w' HX H) as (pz & MM & rows & _ & _ & Hm & EM & Sd & _).
  unfold ll_MM in EM. destruct m as [|m]; [discriminate|]. injection EM as <-.
  set (c := 10 * INR (S m) * ln (INR (S m))) in *. exists (Z.to_nat (ceilZ c)). split; [|exact Sd].
  assert (C0 : 0 <= c).
  { unfold c. apply Rmult_le_pos; [pose proof (pos_INR (S m)); lra|]. assert (1 <= INR (S m)) by (apply (le_INR 1); lia).
    destruct (Req_dec (INR (S m)) 1) as [->|D]; [rewrite ln_1; lra|]. rewrite <- ln_1. left. apply ln_increasing; lra. }
  destruct (ceilZ_spec c) as [A B]. assert (0 <= ceilZ c)%Z by (apply le_IZR; lra).
  rewrite INR_IZR_INZ, Z2Nat.id by auto. lra.
Qed.
Print Assumptions C08_row_count.

Theorem C08_bad_arguments_raise : forall argsort lstsq (G : gen) (U : Type) X f p weights M m
    (w : world G U (nd R)), shape X = [M; m] ->
  ((M <= m)%nat -> exists e, local_linear_gradients argsort lstsq X f p weights w = (Err e, w)) /\
  (p = Some NotA -> exists e, local_linear_gradients argsort lstsq X f p weights w = (Err e, w)) /\
  (forall z, p = Some (IsA z) -> (z < Z.of_nat m + 1 \/ Z.of_nat M < z)%Z ->
    exists e, local_linear_gradients argsort lstsq X f p weights w = (Err e, w)).
Proof. exact ll_raises_bad. Qed.
Print Assumptions C08_bad_arguments_raise.

(** C09 is false of the code: the mask [D2 != 0] is indexed by sample number
    but applied to the sorted order. *)
Definition X09 : nd R := mat_of [[0; 0]; [1; 0]; [0; 2]; [4; 4]; [7; 5]].
Definition f09 : nd R := mat_of [[0]; [1]; [0]; [0]; [0]].

Lemma sq09 : forall i j, sqdist X09 i j = (X09.[i, 0%nat] - X09.[j, 0%nat]) * (X09.[i, 0%nat] - X09.[j, 0%nat])
   + (X09.[i, 1%nat] - X09.[j, 1%nat]) * (X09.[i, 1%nat] - X09.[j, 1%nat]).
Proof. intros. unfold sqdist. change (ncols X09) with 2%nat. cbn [sumf]. ring. Qed.

Lemma sort09 : forall argsort, argsort_contract argsort -> argsort (ll_D2 X09 1) = [1; 0; 2; 3; 4]%nat.
Proof.
  intros argsort HA. apply argsort_unique; auto.
  - rewrite ll_D2_length. change (nrows X09) with 5%nat. simpl. apply perm_swap.
  - unfold ll_D2. change (nrows X09) with 5%nat. cbn [seq map].
    repeat (constructor; [|repeat (constructor; [cbn [nth]; rewrite !sq09; cbn; lra|]); constructor]). constructor.
Qed.

Lemma ind09 : forall argsort, argsort_contract argsort -> ll_ind argsort X09 1 = [1; 2; 3; 4]%nat.
Proof.
  intros argsort HA. unfold ll_ind. rewrite sort09 by auto. unfold ll_D2. change (nrows X09) with 5%nat. cbn [seq map].
  assert (N : forall x, x <> 0 -> neq0b x = true) by (intros x Hx; unfold neq0b; destruct (Req_EM_T x 0); [contradiction|auto]).
  assert (Z : neq0b (sqdist X09 1 1) = false) by (rewrite sqdist_self; unfold neq0b; destruct (Req_EM_T 0 0); [auto|lra]).
  rewrite Z. rewrite !N by (rewrite sq09; cbn; lra). reflexivity.
Qed.

Lemma sq09_1 : sqdist X09 0 1 = 1 /\ sqdist X09 2 1 = 5 /\ sqdist X09 3 1 = 25 /\ sqdist X09 4 1 = 61.
Proof. rewrite !sq09. cbn. repeat split; lra. Qed.

Lemma near09 : forall l, nearest_others X09 5 3 1 l -> In 0%nat l /\ In 2%nat l /\ In 3%nat l /\ forall k, In k l -> (k = 0 \/ k = 2 \/ k = 3)%nat.
Proof.
  intros l (ND & L & Hin & Hnear). destruct sq09_1 as (D0 & D2 & D3 & D4).
  assert (Hsub : forall k, In k l -> (k = 0 \/ k = 2 \/ k = 3 \/ k = 4)%nat) by (intros k Hk; destruct (Hin k Hk); lia).
  assert (H4 : ~ In 4%nat l).
  { intros H4.
    assert (Hall : forall n, (n = 0 \/ n = 2 \/ n = 3)%nat -> In n l).
    { intros n Hn. destruct (in_dec Nat.eq_dec n l) as [|Hnot]; auto. exfalso.
      assert (Q := Hnear 4%nat n H4 ltac:(lia) ltac:(lia) Hnot).
      destruct Hn as [->|[->| ->]]; lra. }
    assert (Hincl : incl [0; 2; 3; 4]%nat l).
    { intros k Hk. simpl in Hk. destruct Hk as [<-|[<-|[<-|[<-|[]]]]]; auto. }
    apply NoDup_incl_length in Hincl; [simpl in Hincl; lia|].
    repeat constructor; simpl; intuition lia. }
  assert (Hsub' : forall k, In k l -> (k = 0 \/ k = 2 \/ k = 3)%nat).
  { intros k Hk. destruct (Hsub k Hk) as [|[|[|E]]]; auto. subst k. contradiction. }
  assert (Hall : forall a b c, (forall k, In k l -> k = a \/ k = b \/ k = c) -> In a l).
  { intros a b c H. destruct (in_dec Nat.eq_dec a l) as [|Hnot]; auto. exfalso.
    assert (Hincl : incl l [b; c]).
    { intros k Hk. destruct (H k Hk) as [->|[->| ->]]; simpl; try tauto. }
    apply NoDup_incl_length in Hincl; auto. simpl in Hincl. lia. }
  split; [|split; [|split]]; auto.
  - apply (Hall 0 2 3)%nat. auto.
  - apply (Hall 2 0 3)%nat. intros k Hk. destruct (Hsub' k Hk) as [|[|]]; auto.
  - apply (Hall 3 0 2)%nat. intros k Hk. destruct (Hsub' k Hk) as [|[|]]; auto.
Qed.

Theorem C09_p_nearest_refuted : exists X f M m p,
  shape X = [M; m] /\ shape f = [M; 1%nat] /\ distinct_rows X M /\ (m + 1 <= p < M)%nat /\
  forall argsort lstsq (G : gen) (U : Type) (w : world G U (nd R)),
    argsort_contract argsort -> lstsq_contract lstsq -> lstsq_total lstsq ->
    fst (g_randint G M (rng w)) = 1%nat ->   (* the first centre is sample 1 *)
    exists df w', local_linear_gradients argsort lstsq X f (Some (IsA (Z.of_nat p))) None w = (Ok df, w') /\
      (0 < nrows df)%nat /\
      forall l u, nearest_others X M p 1 l ->
        lsq_min p (S m) (fun i j => match j with O => 1 | S k => X.[nth i l 0%nat, k] end)
          (fun i => f.[nth i l 0%nat, 0%nat]) u ->
        df.[0%nat, 0%nat] <> u 1%nat.
Proof.
  exists X09, f09, 5%nat, 2%nat, 3%nat. split; [reflexivity|]. split; [reflexivity|].
  assert (HD : distinct_rows X09 5).
  { intros i j Hi Hj Hij. rewrite sq09.
    do 5 (destruct i as [|i]; [do 5 (destruct j as [|j]; [try congruence; cbn; lra|]); lia|]). lia. }
  split; [exact HD|]. split; [lia|].
  intros argsort lstsq G U w HA HL HT Hc.
  destruct (C08_returns argsort lstsq G U X09 f09 None 5 2 (Z.of_nat 3) w HA HT eq_refl eq_refl ltac:(lia) ltac:(lia) I HD) as (df & w' & E).
  exists df, w'. split; auto.
  destruct (ll_inv argsort lstsq X09 f09 _ None 5 2 w df w' eq_refl E) as (pz & MM & rows & E1 & E2 & E3 & E4 & E5 & E6 & E7 & E8).
  injection E1 as <-. destruct (ll_MM_pos 5 2 ltac:(lia) ltac:(lia)) as (MM' & EM). rewrite EM in E4. injection E4 as <-.
  split; [rewrite (nrows_shape2 _ _ _ _ E5); lia|].
  simpl seq in E8. simpl mmap in E8. apply mbind_ok in E8. destruct E8 as (u0 & w1 & H0 & E8).
  apply mbind_ok in E8. destruct E8 as (rest & w2 & _ & E8). injection E8 as E8 _.
  apply mbind_ok in H0. destruct H0 as (ii & w3 & D & H0). unfold draw_randint in D.
  destruct (g_randint G 5 (rng w)) as [c s]. simpl in Hc. subst c. injection D as <- <-.
  unfold mlift in H0. injection H0 as H0 _.
  intros l u HN Hu.
  assert (WP : 0 < (mk2 5 1 (fun _ _ : nat => / (1 + 1 + 1 + 1 + 1))).[1%nat, 0%nat]) by (rewrite at_mk2; lra).
  change (Pos.to_nat 3) with 3%nat in H0.
  destruct (ll_fit_spec argsort lstsq HL X09 f09 _ 5 2 3 1 u0 eq_refl eq_refl WP ltac:(lia) H0) as (LS & SU & HU).
  rewrite (ind09 argsort HA) in HU. cbn [firstn] in HU.
  assert (U1 : u0.[1%nat, 0%nat] = / 5).
  { apply (lsq_exact 3 3 (design X09 [1; 2; 3]%nat) _ (fun j => u0.[j, 0%nat]) (fun j => match j with O => 4 / 5 | 1%nat => / 5 | _ => - 2 / 5 end)) with (j := 1%nat) in HU; auto.
    - intros x Hx. assert (H1 := Hx 0%nat ltac:(lia)). assert (H2 := Hx 1%nat ltac:(lia)). assert (H3 := Hx 2%nat ltac:(lia)).
      cbn in H1, H2, H3. intros j Hj. destruct j as [|[|[|j]]]; try lia; lra.
    - intros i Hi. destruct i as [|[|[|i]]]; try lia; cbn; lra. }
  rewrite E7, at_mk2, <- E8. cbn [nth]. rewrite U1.
  destruct (near09 l HN) as (I0 & I2 & I3 & Hin). destruct HN as (ND & L & _).
  assert (U2 : u 1%nat = 0).
  { apply (lsq_exact 3 3 (design X09 l) _ u (fun _ => 0)) with (j := 1%nat) in Hu; auto.
    - intros x Hx.
      assert (Hrow : forall k, In k l -> x 0%nat + X09.[k, 0%nat] * x 1%nat + X09.[k, 1%nat] * x 2%nat = 0).
      { intros k Hk. destruct (In_nth _ _ 0%nat Hk) as (i & Hi & <-). rewrite <- (Hx i) by lia. cbn [sumf design]. ring. }
      pose proof (Hrow _ I0) as H1. pose proof (Hrow _ I2) as H2. pose proof (Hrow _ I3) as H3. cbn in H1, H2, H3.
      intros j Hj. destruct j as [|[|[|j]]]; try lia; lra.
    - intros i Hi. rewrite sumf_zero by (intros; ring).
      destruct (Hin (nth i l 0%nat)) as [->|[->| ->]]; [apply nth_In; lia|reflexivity|reflexivity|reflexivity]. }
  rewrite U2. lra.
Qed.
Print Assumptions C09_p_nearest_refuted.

(** what the code does with p = M: it always raises (m >= 2) *)
Theorem C09_p_equal_M_refuted : forall argsort lstsq (G : gen) (U : Type) X f p weights M m (w : world G U (nd R)),
  argsort_contract argsort -> shape X = [M; m] -> (2 <= m < M)%nat ->
  p = Some (IsA (Z.of_nat M)) \/ (p = None /\ (M <= 17 * m / 10)%nat) ->
  exists e w', local_linear_gradients argsort lstsq X f p weights w = (Err e, w').
Proof.
  intros argsort lstsq G U X f p weights M m w HA HX Hm Hp.
  destruct (ll_MM_pos M m ltac:(lia) ltac:(lia)) as (MM & EM).
  apply (ll_p_eq_M_raises argsort HA lstsq X f p weights M m MM w HX); auto.
  destruct Hp as [->|[-> Hp]]; cbn [ll_p]; auto. rewrite Nat.min_r by auto. reflexivity.
Qed.
Print Assumptions C09_p_equal_M_refuted.

(** What does hold when the samples are distinct: every row is the slope of a
    least-squares fit on p of the p+1 samples nearest the centre (centre
    included): the one in position c of the order by distance is left out, c
    being the number of the centre.  For c = 0 these are the p nearest others.
    Missing for the documented claim: all other centres. *)
Theorem C09_neighbours_partial : forall argsort lstsq (G : gen) (U : Type) X f p M m (w : world G U (nd R)) df w',
  argsort_contract argsort -> lstsq_contract lstsq ->
  shape X = [M; m] -> shape f = [M; 1%nat] -> distinct_rows X M ->
  local_linear_gradients argsort lstsq X f (Some (IsA (Z.of_nat p))) None w = (Ok df, w') ->
  forall i, (i < nrows df)%nat -> exists c s u, (c < M)%nat /\ by_distance X M c s /\
    (forall j, (j < m)%nat -> df.[i, j] = u (S j)) /\
    (let l := firstn p (firstn c s ++ skipn (S c) s) in
     NoDup l /\ List.length l = p /\
     lsq_min p (S m) (fun i j => match j with O => 1 | S k => X.[nth i l 0%nat, k] end)
       (fun i => f.[nth i l 0%nat, 0%nat]) u /\
     (c = 0%nat -> (p < M)%nat -> nearest_others X M p c l) /\
     ((p <= c)%nat -> In c l)).
Proof.
  intros argsort lstsq G U X f p M m w df w' HA HL HX Hf HD H i Hi.
  destruct (ll_rows argsort lstsq X f _ None M m w df w' HX H) as (pz & MM & E1 & E2 & E3 & E4 & E5).
  injection E1 as <-. rewrite Nat2Z.id in *. rewrite (nrows_shape2 _ _ _ _ E4) in Hi.
  destruct (E5 i Hi) as (c & u & Hc & Hfit & Hrow).
  destruct (ll_ind_distinct argsort X M m c HA HX Hc HD) as (s & HB & EI).
  assert (HP : 0 < (mk2 M 1 (fun _ _ => / INR M)).[c, 0%nat]) by (rewrite at_mk2; apply Rinv_0_lt_compat, lt_0_INR; lia).
  destruct (ll_fit_spec argsort lstsq HL X f _ M m p c u HX Hf HP ltac:(lia) Hfit) as (LS & SU & HU).
  exists c, s, (fun j => u.[j, 0%nat]). split; auto. split; auto. split; auto.
  pose proof (ll_ind_NoDup argsort HA X c) as HND. rewrite EI in LS, HU, HND. cbv zeta.
  split; [now apply firstn_NoDup|]. split; auto. split; [exact HU|]. split.
  - intros -> Hp. cbn [firstn app]. apply sorted_tail_nearest; auto.
  - intros Hpc. pose proof (by_distance_head X M c s HB HD Hc) as Hh.
    destruct HB as [P _]. assert (Ls : List.length s = M) by (rewrite (Permutation_length P), seq_length; auto).
    destruct s as [|x s]; [simpl in Ls; lia|]. simpl in Hh. subst x.
    destruct p as [|p]; [lia|]. destruct c as [|c]; [lia|]. simpl. auto.
Qed.
Print Assumptions C09_neighbours_partial.

(** the data of C09_p_nearest_refuted with affine outputs: the slope (2, -1) is
    recovered although the wrong neighbours are used *)
Example C08_case :
  let f := mk2 5 1 (fun i _ => 3 + sumf 2 (fun j => (match j with O => 2 | _ => -1 end) * X09.[i, j])) in
  exists df w', local_linear_gradients argsort_ref lstsq_ref X09 f (Some (IsA 4%Z)) None (toy_world (U:=unit) (L:=nd R) tt) = (Ok df, w') /\
    (0 < nrows df)%nat /\ df.[0%nat, 0%nat] = 2 /\ df.[0%nat, 1%nat] = -1.
Proof.
  intros f.
  assert (HD : distinct_rows X09 5).
  { intros i j Hi Hj Hij. rewrite sq09.
    do 5 (destruct i as [|i]; [do 5 (destruct j as [|j]; [try congruence; cbn; lra|]); lia|]). lia. }
  destruct (C08_returns argsort_ref lstsq_ref toy_gen unit X09 f None 5 2 4%Z (toy_world tt)
     argsort_ref_contract lstsq_ref_total eq_refl eq_refl ltac:(lia) ltac:(lia) I HD) as (df & w' & E).
  exists df, w'. split; auto.
  destruct (C08_exact_on_affine_data argsort_ref lstsq_ref toy_gen unit X09 f (Some (IsA 4%Z)) None 5 2 (toy_world tt) df w' 3
    (fun j => match j with O => 2 | _ => -1 end) argsort_ref_contract lstsq_ref_contract eq_refl eq_refl I) as (MM & S1 & S2); auto.
  - intros q Hq [(z & Ez & <-)|[E0 _]]; [|discriminate]. injection Ez as <-. intros l ND L Hl.
    change (Z.to_nat 4) with 4%nat in *. intros x Hx.
    assert (Hrow : forall k, In k l -> x 0%nat + X09.[k, 0%nat] * x 1%nat + X09.[k, 1%nat] * x 2%nat = 0).
    { intros k Hk. destruct (In_nth _ _ 0%nat Hk) as (i & Hi & <-). rewrite <- (Hx i) by lia. cbn [sumf]. ring. }
    (* at most one of the five samples is missing from l *)
    assert (Hmiss : forall a b, a <> b -> (a < 5)%nat -> (b < 5)%nat -> In a l \/ In b l).
    { intros a b Hab Ha Hb. destruct (in_dec Nat.eq_dec a l); auto. destruct (in_dec Nat.eq_dec b l); auto. exfalso.
      assert (Hincl : incl (a :: b :: l) (seq 0 5)).
      { intros k [<-|[<-|Hk]]; apply in_seq; try lia. specialize (Hl k Hk). lia. }
      apply NoDup_incl_length in Hincl.
      - rewrite seq_length in Hincl. simpl in Hincl. lia.
      - constructor; [simpl; intuition|constructor; auto]. }
    assert (H01 := Hmiss 0%nat 1%nat ltac:(lia) ltac:(lia) ltac:(lia)).
    assert (H02 := Hmiss 0%nat 2%nat ltac:(lia) ltac:(lia) ltac:(lia)).
    assert (H03 := Hmiss 0%nat 3%nat ltac:(lia) ltac:(lia) ltac:(lia)).
    assert (H12 := Hmiss 1%nat 2%nat ltac:(lia) ltac:(lia) ltac:(lia)).
    assert (H13 := Hmiss 1%nat 3%nat ltac:(lia) ltac:(lia) ltac:(lia)).
    assert (H23 := Hmiss 2%nat 3%nat ltac:(lia) ltac:(lia) ltac:(lia)).
    assert (G : (In 0%nat l /\ In 1%nat l /\ In 2%nat l) \/ (In 0%nat l /\ In 1%nat l /\ In 3%nat l) \/ (In 0%nat l /\ In 2%nat l /\ In 3%nat l) \/ (In 1%nat l /\ In 2%nat l /\ In 3%nat l)) by tauto.
    intros j Hj.
    destruct G as [(A & B & C)|[(A & B & C)|[(A & B & C)|(A & B & C)]]];
      pose proof (Hrow _ A) as R1; pose proof (Hrow _ B) as R2; pose proof (Hrow _ C) as R3; cbn in R1, R2, R3;
      destruct j as [|[|[|j]]]; try lia; lra.
  - destruct (ll_inv argsort_ref lstsq_ref X09 f _ None 5 2 (toy_world tt) df w' eq_refl E) as (pz & MM2 & rows & _ & _ & _ & E4 & E5 & _).
    destruct (ll_MM_pos 5 2 ltac:(lia) ltac:(lia)) as (MM' & EM). rewrite EM in E4. injection E4 as <-.
    rewrite S1 in E5. injection E5 as ->. rewrite (nrows_shape2 _ _ _ _ S1).
    split; [lia|]. split; apply S2; lia.
Qed.

(** any outputs at those five samples *)
Example C09_case : forall f, shape f = [5%nat; 1%nat] -> exists df w',
  local_linear_gradients argsort_ref lstsq_ref X09 f (Some (IsA (Z.of_nat 4))) None (toy_world (U:=unit) (L:=nd R) tt) = (Ok df, w') /\ (0 < nrows df)%nat /\
  exists c s u, (c < 5)%nat /\ by_distance X09 5 c s /\ (forall j, (j < 2)%nat -> df.[0%nat, j] = u (S j)) /\
    lsq_min 4 3 (fun i j => match j with O => 1 | S k => X09.[nth i (firstn 4 (firstn c s ++ skipn (S c) s)) 0%nat, k] end)
      (fun i => f.[nth i (firstn 4 (firstn c s ++ skipn (S c) s)) 0%nat, 0%nat]) u.
Proof.
  intros f Sf.
  assert (HD : distinct_rows X09 5).
  { intros i j Hi Hj Hij. rewrite sq09.
    do 5 (destruct i as [|i]; [do 5 (destruct j as [|j]; [try congruence; cbn; lra|]); lia|]). lia. }
  destruct (C08_returns argsort_ref lstsq_ref toy_gen unit X09 f None 5 2 4%Z (toy_world tt)
     argsort_ref_contract lstsq_ref_total eq_refl Sf ltac:(lia) ltac:(lia) I HD) as (df & w' & E).
  exists df, w'. change (Z.of_nat 4) with 4%Z. split; auto.
  assert (P : (0 < nrows df)%nat).
  { destruct (ll_inv argsort_ref lstsq_ref X09 f _ None 5 2 (toy_world tt) df w' eq_refl E) as (pz & MM2 & rows & _ & _ & _ & E4 & E5 & _).
    destruct (ll_MM_pos 5 2 ltac:(lia) ltac:(lia)) as (MM' & EM). rewrite EM in E4. injection E4 as <-. rewrite (nrows_shape2 _ _ _ _ E5). lia. }
  split; [exact P |].
  destruct (C09_neighbours_partial argsort_ref lstsq_ref toy_gen unit X09 f 4 5 2 (toy_world tt) df w' argsort_ref_contract lstsq_ref_contract eq_refl Sf HD E 0%nat P)
    as (c & s & u & Hc & Hs & Hu & _ & _ & HL & _). exists c, s, u. auto.
Qed.
