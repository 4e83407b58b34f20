(** Final theorems for integrals.py: C43-C46 *)
From Coq Require Import String Reals Lra Lia List Arith ZArith Bool ClassicalDedekindReals Classical.
From Verif Require Import Prelude Py NumArr Toy M_Misc M_SimRunners M_RespSurf M_Gradients M_Subspaces M_Quadrature M_QP M_Domains M_Designs M_ASRS M_Integrals
  P_Misc P_SimRunners P_DomSample P_Domains P_CondExp P_Quiet P_Inverse P_Integrals Properties_Misc Properties_QP Properties_Domains Properties_Zonotope Properties_Designs Properties_ASRS Properties_ASTrain.
Import ListNotations.
Open Scope R_scope.

(** ** C44 *)

(** what the rule does on [a, b], whatever the samples *)
Lemma interval_rule_run : forall (G : gen) (U : Type) d m W1 vY a b N NX (w : world G U (nd R)),
  s_W1 (d_subs d) = Some W1 -> shape W1 = [m; 1%nat] -> d_vertY d = Some vY -> get2 vY 0 0 = Ok a -> get2 vY 1 0 = Ok b -> a <= b -> (0 < N)%nat -> (0 < NX)%nat ->
  let us := uniforms (-1) 1 (NX * m) (rng w) in
  let y s := sumf m (fun c => nth (s * m + c) (fst us) 0 * W1.[c, 0%nat]) in
  let e i := a + INR i * ((b - a) / INR N) in
  exists P Q, interval_quadrature_rule d (Z.of_nat N) (Z.of_nat NX) w = (Ok (P, Q), set_rng w (snd us)) /\ shape P = [N; 1%nat] /\ shape Q = [N; 1%nat] /\
    (forall i, (i < N)%nat -> P.[i, 0%nat] = / 2 * (e (S i) + e i)) /\
    (forall i, (i < N)%nat -> exists c, Q.[i, 0%nat] = INR c / INR NX /\ number NX c (fun s => in_bin e N i (y s))) /\
    ((forall s, (s < NX)%nat -> a <= y s <= b) -> sumf N (fun i => Q.[i, 0%nat]) = 1).
Proof.
  intros G U d m W1 vY a b N NX w EW SW EV Ea Eb Hab HN HX us y e.
  assert (PN : 0 < INR N) by (apply lt_0_INR; lia). assert (PX : 0 < INR NX) by (apply lt_0_INR; lia).
  unfold interval_quadrature_rule. unfold mbind at 1, mlift at 1. rewrite EW. cbn [need]. unfold mbind at 1, mlift at 1. rewrite EV. cbn [need].
  unfold mbind at 1, mlift at 1. rewrite Ea. unfold mbind at 1, mlift at 1. rewrite Eb. unfold mbind at 1, mlift at 1. unfold shape2. rewrite SW.
  unfold mbind at 1, mlift at 1. unfold linspace, dimZ at 1. destruct (Z.ltb_spec (Z.of_nat N + 1) 0) as [C|_]; [lia|]. cbn [rbind].
  replace (Z.to_nat (Z.of_nat N + 1)) with (S N) by lia. cbv zeta. set (yy := mk1 (S N) _). replace (size yy) with (S N) by (unfold yy, size; simpl; lia).
  assert (VE : forall i, yy.[i] = e i).
  { intros i. unfold yy. rewrite at_mk1. destruct (Nat.eqb_spec (S N) 1) as [C|_]; [lia|]. replace (S N - 1)%nat with N by lia. reflexivity. }
  unfold mbind at 1, mlift at 1. unfold dimZ. destruct (Z.ltb_spec (Z.of_nat NX) 0) as [C|_]; [lia|]. rewrite Nat2Z.id.
  unfold mbind at 1. rewrite uniform2_run. fold us. set (Xu := mk2 NX m (fun i j => nth (i * m + j) (fst us) 0)).
  unfold mbind at 1, mlift at 1. rewrite (npdot2 Xu W1 NX m 1 eq_refl SW). set (Y1 := mk2 NX 1 _).
  destruct (reshape_ok _ [NX] Y1) as (Y2 & ER & SR & VR); [unfold size; simpl; lia|].
  unfold mbind at 1, mlift at 1. rewrite ER. unfold mbind at 1, mlift at 1. change (Nat.ltb 0 (S N)) with true. cbn [guard].
  assert (VY : forall s, (s < NX)%nat -> Y2.[s] = y s).
  { intros s Hs. rewrite VR by (constructor; auto; constructor). unfold Y1. cbn [shape mk2 unravel ravel prodn]. change (1 * 1)%nat with 1%nat. rewrite Nat.div_1_r, Nat.mod_1_r.
    replace (s * 1 + 0)%nat with s by lia. rewrite Nat.div_1_r. cbn [at_ mk2 nth]. unfold y. apply sumf_ext. intros c Hc. unfold Xu. now rewrite at_mk2. }
  assert (EL : map (fun i => Y2.[i]) (seq 0 NX) = map y (seq 0 NX)). { apply map_ext_in. intros s Hs. apply in_seq in Hs. apply VY. lia. }
  assert (EE : map (fun i => yy.[i]) (seq 0 (S N)) = map e (seq 0 (S N))) by (apply map_ext; auto).
  rewrite EL, EE.
  destruct (histogram_ok y e NX N) as (h & EH & LH & VH & SH).
  { intros i Hi. unfold e. rewrite S_INR. assert (0 <= (b - a) / INR N); [|nra]. unfold Rdiv. apply Rmult_le_pos; [lra|]. left. now apply Rinv_0_lt_compat. }
  unfold mbind at 1, mlift at 1. rewrite EH. unfold mbind at 1, mlift at 1. rewrite (proj2 (Nat.ltb_lt 0 NX) HX). cbn [guard]. unfold mret.
  eexists _, _. split; [reflexivity|]. replace (S N - 1)%nat with N by lia. split; [reflexivity|]. split; [reflexivity|]. split; [|split].
  - intros i Hi. rewrite at_mk2, !VE. reflexivity.
  - intros i Hi. destruct (VH i Hi) as (c & Ec & Nc). exists c. split; auto. rewrite at_mk2. unfold over. now rewrite Ec.
  - intros HY. rewrite (sumf_ext N _ (fun i => nth i h 0 * / INR NX)) by (intros; rewrite at_mk2; reflexivity).
    rewrite sumf_scal_r, SH. destruct (Nat.eqb_spec N 0) as [C|_]; [lia|].
    assert (E0 : e 0%nat = a) by (unfold e; simpl; ring). assert (EN : e N = b) by (unfold e; field; lra).
    rewrite E0, EN. rewrite count_all, count_none; [|intros v Hv; apply in_map_iff in Hv; destruct Hv as (s & <- & Hs); apply in_seq in Hs; apply HY; lia|intros v Hv; apply in_map_iff in Hv; destruct Hv as (s & <- & Hs); apply in_seq in Hs; apply HY; lia].
    rewrite map_length, seq_length, Z.sub_0_r, <- INR_IZR_INZ. field. lra.
Qed.

(** For a subspace with one active variable and the domain that the library
    builds from it ([interval_endpoints]), any random stream: N midpoints of
    equal bins of [a, b], weights are the fractions of the NX samples y s in each
    bin, and they add up to 1. *)
Theorem C44_interval_rule : forall (G : gen) (U : Type) d m W1 vY vX N NX (w : world G U (nd R)),
  s_W1 (d_subs d) = Some W1 -> shape W1 = [m; 1%nat] -> interval_endpoints W1 = Ok (vY, vX) -> d_vertY d = Some vY -> (1 <= N)%nat -> (1 <= NX)%nat ->
  let us := uniforms (-1) 1 (NX * m) (rng w) in
  let y s := sumf m (fun c => nth (s * m + c) (fst us) 0 * W1.[c, 0%nat]) in
  let a := vY.[0%nat, 0%nat] in let b := vY.[1%nat, 0%nat] in let e i := a + INR i * ((b - a) / INR N) in
  exists P Q, interval_quadrature_rule d (Z.of_nat N) (Z.of_nat NX) w = (Ok (P, Q), set_rng w (snd us)) /\ shape P = [N; 1%nat] /\ shape Q = [N; 1%nat] /\
    e 0%nat = a /\ e N = b /\ (forall s, (s < NX)%nat -> a <= y s <= b) /\
    (forall i, (i < N)%nat -> P.[i, 0%nat] = (e i + e (S i)) / 2) /\
    (forall i, (i < N)%nat -> exists c, Q.[i, 0%nat] = INR c / INR NX /\ number NX c (fun s => in_bin e N i (y s))) /\
    (forall i, (i < N)%nat -> 0 <= Q.[i, 0%nat]) /\ sumf N (fun i => Q.[i, 0%nat]) = 1.
Proof.
  intros G U d m W1 vY vX N NX w EW SW EI EV HN HX us y a b e.
  destruct (C23_interval_endpoints W1 m SW) as (Y & X & E & SY & SX & H). rewrite EI in E. injection E as <- <-. cbv zeta in H. fold a in H. fold b in H.
  destruct H as (Hab & _ & _ & _ & _ & RG).
  assert (Ga : get2 vY 0 0 = Ok a) by (unfold get2; now rewrite SY). assert (Gb : get2 vY 1 0 = Ok b) by (unfold get2; now rewrite SY).
  assert (PN : 0 < INR N) by (apply lt_0_INR; lia). assert (PX : 0 < INR NX) by (apply lt_0_INR; lia).
  assert (IN : forall s, (s < NX)%nat -> a <= y s <= b).
  { intros s Hs. apply RG. exists (fun c => nth (s * m + c) (fst us) 0). split.
    - intros c Hc. apply uniforms_range; [lra|nia].
    - apply sumf_ext. intros; ring. }
  destruct (interval_rule_run G U d m W1 vY a b N NX w EW SW EV Ga Gb Hab HN HX) as (P & Q & ER & SP & SQ & VP & VQ & S1).
  exists P, Q. split; [exact ER|]. split; auto. split; auto. split; [unfold e; simpl; ring|]. split; [unfold e; field; lra|]. split; auto. split; [|split; [|split]].
  - intros i Hi. rewrite VP by auto. fold (e (S i)). fold (e i). lra.
  - exact VQ.
  - intros i Hi. destruct (VQ i Hi) as (c & -> & _). unfold Rdiv. apply Rmult_le_pos; [apply pos_INR|]. left. now apply Rinv_0_lt_compat.
  - apply S1. exact IN.
Qed.
Print Assumptions C44_interval_rule.

(** N = -1 is the only other size that gets as far as drawing samples; it and all
    smaller ones raise, N = 0 gives an empty rule *)
Theorem C44_no_points : forall (G : gen) (U : Type) d m W1 vY N NX (w : world G U (nd R)),
  s_W1 (d_subs d) = Some W1 -> shape W1 = [m; 1%nat] -> d_vertY d = Some vY -> shape vY = [2%nat; 1%nat] -> (1 <= NX)%nat ->
  ((N < 0)%Z -> exists w', interval_quadrature_rule d N (Z.of_nat NX) w = (Err ValueError, w')) /\
  (N = 0%Z -> exists P Q w', interval_quadrature_rule d N (Z.of_nat NX) w = (Ok (P, Q), w') /\ shape P = [0%nat; 1%nat] /\ shape Q = [0%nat; 1%nat]).
Proof.
  intros G U d m W1 vY N NX w EW SW EV SV HX.
  assert (Ga : get2 vY 0 0 = Ok (vY.[0%nat, 0%nat])) by (unfold get2; now rewrite SV). assert (Gb : get2 vY 1 0 = Ok (vY.[1%nat, 0%nat])) by (unfold get2; now rewrite SV).
  set (us := uniforms (-1) 1 (NX * m) (rng w)). set (Xu := mk2 NX m (fun i j => nth (i * m + j) (fst us) 0)). set (Y1 := mk2 NX 1 (fun i j => sumf m (fun l => Xu.[i, l] * W1.[l, j]))).
  destruct (reshape_ok _ [NX] Y1) as (Y2 & ER & SR & VR); [unfold size; simpl; lia|].
  split; intros HN; unfold interval_quadrature_rule; unfold mbind at 1, mlift at 1; rewrite EW; cbn [need]; unfold mbind at 1, mlift at 1; rewrite EV; cbn [need]; unfold mbind at 1, mlift at 1; rewrite Ga; unfold mbind at 1, mlift at 1; rewrite Gb;
    unfold mbind at 1, mlift at 1; unfold shape2; rewrite SW; unfold mbind at 1, mlift at 1, linspace, dimZ at 1.
  - destruct (Z.ltb_spec (N + 1) 0) as [C|C]; [eexists; reflexivity|]. replace (Z.to_nat (N + 1)) with 0%nat by lia. cbn [rbind]. cbv zeta.
    unfold mbind at 1, mlift at 1. unfold dimZ. destruct (Z.ltb_spec (Z.of_nat NX) 0) as [C'|_]; [lia|]. rewrite Nat2Z.id.
    unfold mbind at 1. rewrite uniform2_run. unfold mbind at 1, mlift at 1. fold us. fold Xu. rewrite (npdot2 Xu W1 NX m 1 eq_refl SW). fold Y1.
    unfold mbind at 1, mlift at 1. rewrite ER. eexists; reflexivity.
  - subst N. change (Z.ltb (0 + 1) 0) with false. change (Z.to_nat (0 + 1)) with 1%nat. cbn [rbind]. cbv zeta.
    unfold mbind at 1, mlift at 1. unfold dimZ. destruct (Z.ltb_spec (Z.of_nat NX) 0) as [C'|_]; [lia|]. rewrite Nat2Z.id.
    unfold mbind at 1. rewrite uniform2_run. unfold mbind at 1, mlift at 1. fold us. fold Xu. rewrite (npdot2 Xu W1 NX m 1 eq_refl SW). fold Y1.
    unfold mbind at 1, mlift at 1. rewrite ER. unfold mbind at 1, mlift at 1. cbn [size shape mk1 prodn]. change (Nat.ltb 0 1) with true. cbn [guard].
    unfold mbind at 1, mlift at 1. unfold histogram. cbn [seq map increasing]. unfold mbind at 1, mlift at 1. rewrite (proj2 (Nat.ltb_lt 0 NX) HX). cbn [guard].
    eexists _, _, _. split; [reflexivity|]. split; reflexivity.
Qed.
Print Assumptions C44_no_points.
(** the domain of w = (3/5, 4/5): four bins of [-7/5, 7/5], 10000 samples *)
Example C44_case : exists vY vX P Q w', let W1 := mat_of [[3/5]; [4/5]] in
  interval_endpoints W1 = Ok (vY, vX) /\
  interval_quadrature_rule (AVD DBounded (Subs None None (Some W1) None None None) 2 1 (Some vY) (Some vX) None None) 4 10000 (toy_world tt : world toy_gen unit (nd R)) = (Ok (P, Q), w') /\
  P.[0%nat, 0%nat] = - (21 / 20) /\ sumf 4 (fun i => Q.[i, 0%nat]) = 1.
Proof.
  destruct (C23_interval_endpoints (mat_of [[3/5]; [4/5]]) 2 eq_refl) as (Y & X & E & SY & SX & H). cbv zeta in H. destruct H as (_ & H1 & H2 & _).
  assert (Q1 : Y.[1%nat, 0%nat] = 7 / 5). { rewrite H2. simpl. rewrite !Rabs_right by lra. lra. }
  destruct (Z_of_nat_complete 10000 ltac:(lia)) as (NX & EX).
  destruct (C44_interval_rule toy_gen unit (AVD DBounded (Subs None None (Some (mat_of [[3/5]; [4/5]])) None None None) 2 1 (Some Y) (Some X) None None) 2 (mat_of [[3/5]; [4/5]]) Y X 4 NX (toy_world tt) eq_refl eq_refl E eq_refl ltac:(lia) ltac:(lia))
    as (P & Q & ER & _ & _ & _ & _ & _ & VP & _ & _ & S1).
  rewrite <- EX in ER. change (Z.of_nat 4) with 4%Z in ER.
  exists Y, X, P, Q. eexists. cbv zeta. split; [exact E|]. split; [exact ER|]. split; [|exact S1].
  rewrite VP by lia. simpl INR. lra.
Qed.

(** ** C45 *)

(** x is a convex combination of the rows t of y *)
Definition in_simplex (y : nd R) (n : nat) (t : list nat) (x : nat -> R) : Prop :=
  exists lam : nat -> R, (forall q, (q < List.length t)%nat -> 0 <= lam q) /\ sumf (List.length t) lam = 1 /\
    forall j, (j < n)%nat -> x j = sumf (List.length t) (fun q => lam q * y.[nth q t 0%nat, j]).
(** what scipy.spatial.Delaunay promises: simplices are n+1 rows of the data;
    find_simplex names one that contains the point, and says -1 only for points
    in no simplex *)
Definition delaunay_ok (delaunay : nd R -> res (list (list nat) * (nd R -> list Z))) : Prop :=
  forall y V n tri find, shape y = [V; n] -> delaunay y = Ok (tri, find) ->
    (forall t, In t tri -> List.length t = S n /\ forall v, In v t -> (v < V)%nat) /\
    forall Ys q, shape Ys = [q; n] -> List.length (find Ys) = q /\
      forall s, (s < q)%nat -> let v := nth s (find Ys) (-1)%Z in
        ((0 <= v < Z.of_nat (List.length tri))%Z /\ in_simplex y n (nth (Z.to_nat v) tri []) (fun j => Ys.[s, j])) \/
        (v = (-1)%Z /\ forall t, In t tri -> ~ in_simplex y n t (fun j => Ys.[s, j])).

Lemma sumr_nth : forall (f : nat -> R) t, sumr (map f t) = sumf (List.length t) (fun q => f (nth q t 0%nat)).
Proof.
  intros f t. induction t as [|a t IH]; auto. cbn [map List.length]. replace (S (List.length t)) with (1 + List.length t)%nat by lia. rewrite sumf_split. cbn [sumf nth plus].
  simpl sumr. rewrite IH. ring.
Qed.

(** One node per simplex, its centroid; weight = fraction of the NX samples that
    find_simplex puts there; total = fraction put anywhere. *)
Theorem C45_zonotope_rule : forall (G : gen) (U : Type) B ch delaunay d m n W1 vert NV N NX (w w' : world G U (nd R)) P Q,
  delaunay_ok delaunay -> s_W1 (d_subs d) = Some W1 -> shape W1 = [m; n] -> d_vertY d = Some vert -> shape vert = [NV; n] ->
  zonotope_quadrature_rule B ch delaunay d N (Z.of_nat NX) w = (Ok (P, Q), w') ->
  let us := uniforms (-1) 1 (NX * m) (rng w) in
  let ys s j := sumf m (fun c => nth (s * m + c) (fst us) 0 * W1.[c, j]) in
  exists D K y tri (loc : nat -> Z), maximin_design B ch vert N w = (Ok D, w) /\ N = Z.of_nat K /\ shape D = [K; n] /\
    vstack vert D = Ok y /\ (exists find, delaunay y = Ok (tri, find)) /\ w' = set_rng w (snd us) /\ (1 <= NX)%nat /\
    let k := List.length tri in shape P = [k; n] /\ shape Q = [k; 1%nat] /\
    (forall s, (s < NX)%nat -> (0 <= loc s < Z.of_nat k)%Z /\ in_simplex y n (nth (Z.to_nat (loc s)) tri []) (ys s) \/
                               loc s = (-1)%Z /\ forall t, In t tri -> ~ in_simplex y n t (ys s)) /\
    (forall i, (i < k)%nat -> let t := nth i tri [] in List.length t = S n /\ (forall v, In v t -> (v < NV + K)%nat) /\
       in_simplex y n t (fun j => P.[i, j]) /\ forall j, (j < n)%nat -> P.[i, j] = sumf (S n) (fun q => y.[nth q t 0%nat, j]) / INR (S n)) /\
    (forall i, (i < k)%nat -> exists c, number NX c (fun s => loc s = Z.of_nat i) /\ Q.[i, 0%nat] = INR c / INR NX) /\
    (exists c, number NX c (fun s => loc s <> (-1)%Z) /\ sumf k (fun i => Q.[i, 0%nat]) = INR c / INR NX) /\
    (sumf k (fun i => Q.[i, 0%nat]) = 1 <-> forall s, (s < NX)%nat -> exists t, In t tri /\ in_simplex y n t (ys s)).
Proof.
  intros G U B ch delaunay d m n W1 vert NV N NX w w' P Q HD EW SW EV SV H us ys.
  unfold zonotope_quadrature_rule in H. apply mbind_ok in H. destruct H as (v' & w1 & E & H). apply mlift_inv in E. destruct E as [E ->]. rewrite EV in E. injection E as <-.
  apply mbind_ok in H. destruct H as (W1' & w1 & E & H). apply mlift_inv in E. destruct E as [E ->]. rewrite EW in E. injection E as <-.
  apply mbind_ok in H. destruct H as ([m' n'] & w1 & E & H). apply mlift_inv in E. destruct E as [E ->]. unfold shape2 in E. rewrite SW in E. injection E as <- <-.
  apply mbind_ok in H. destruct H as (D & w1 & EM & H). destruct (maximin_shape _ _ _ _ _ _ _ _ _ _ _ _ SV EM) as (-> & K & EK & SD).
  apply mbind_ok in H. destruct H as (y & w1 & E & H). apply mlift_inv in E. destruct E as [Ey ->].
  destruct (vstack_ok vert D NV K n vert SV SD) as (y' & Ey' & Sy & _). rewrite Ey in Ey'. injection Ey' as <-.
  apply mbind_ok in H. destruct H as ([tri find] & w1 & E & H). apply mlift_inv in E. destruct E as [Ed ->]. cbv zeta in H.
  apply mbind_ok in H. destruct H as (NX' & w1 & E & H). apply mlift_inv in E. destruct E as [E ->]. unfold dimZ in E. destruct (Z.ltb_spec (Z.of_nat NX) 0) as [C|_]; [lia|]. rewrite Nat2Z.id in E. injection E as <-.
  apply mbind_ok in H. destruct H as (Xu & w1 & E & H). rewrite uniform2_run in E. fold us in E. injection E as E <-. 
  apply mbind_ok in H. destruct H as (Ys & w1 & E' & H). apply mlift_inv in E'. destruct E' as [E' ->]. subst Xu. set (Xu := mk2 NX m (fun i j => nth (i * m + j) (fst us) 0)) in E'.
  rewrite (npdot2 Xu W1 NX m n eq_refl SW) in E'. injection E' as <-. set (Ys := mk2 NX n _) in H.
  apply mbind_ok in H. destruct H as (? & w1 & E & H). apply mlift_inv in E. destruct E as [E ->]. destruct (Nat.ltb_spec 0 NX) as [HX|]; [|discriminate]. clear E x.
  apply mbind_ok in H. destruct H as (Yp & w1 & E & H). apply mlift_inv in E. destruct E as [E ->]. rewrite (ncols_shape2 _ y _ _ Sy) in E.
  match type of E with reshape _ ?x = _ => change (reshape (shape x) x = Ok Yp) in E; rewrite (reshape_id _ x) in E end. injection E as <-. apply mret_inv in H. destruct H as [H ->]. injection H as -> ->.
  destruct (HD y (NV + K)%nat n tri find Sy Ed) as [TR FI]. destruct (FI Ys NX eq_refl) as [FL FV].
  assert (PX : 0 < INR NX) by (apply lt_0_INR; lia).
  set (loc := fun s => nth s (find Ys) (-1)%Z).
  exists D, K, y, tri, loc. split; auto. split; auto. split; auto. split; auto. split; [eauto|]. split; auto. split; auto. cbv zeta. split; [reflexivity|]. split; [reflexivity|].
  assert (LOC : forall s, (s < NX)%nat -> (0 <= loc s < Z.of_nat (List.length tri))%Z /\ in_simplex y n (nth (Z.to_nat (loc s)) tri []) (ys s) \/
                               loc s = (-1)%Z /\ forall t, In t tri -> ~ in_simplex y n t (ys s)).
  { intros s Hs. assert (EY : forall j, Ys.[s, j] = ys s j). { intros j. unfold Ys, ys. rewrite at_mk2. apply sumf_ext. intros c Hc. reflexivity. }
    assert (IS : forall t, in_simplex y n t (fun j => Ys.[s, j]) <-> in_simplex y n t (ys s)).
    { intros t. unfold in_simplex. split; intros (lam & L1 & L2 & L3); exists lam; (split; [auto|split; [auto|]]); intros j Hj; rewrite <- L3 by auto; rewrite EY; auto. }
    destruct (FV s Hs) as [[A B1]|[A B1]]; [left|right]; (split; [exact A|]); [apply IS; exact B1|]. intros t Ht Hc. apply (B1 t Ht). now apply IS. }
  assert (NS : forall f, List.length (filter f (find Ys)) = List.length (filter (fun s => f (loc s)) (seq 0 NX))).
  { intros f. rewrite (filter_nth_seq f (find Ys) (-1)%Z), FL. reflexivity. }
  split; [exact LOC|]. split; [|split; [|split]].
  - intros i Hi. destruct (TR (nth i tri []) ltac:(now apply nth_In)) as [T1 T2]. split; auto. split; auto.
    set (t := nth i tri []) in *.
    assert (CE : forall j, (j < n)%nat -> nth j (nth i (map (centroid y) tri) []) 0 = sumf (S n) (fun q => y.[nth q t 0%nat, j]) / INR (S n)).
    { intros j Hj. rewrite (nth_indep _ [] (centroid y [])) by (rewrite map_length; auto). rewrite map_nth. fold t. unfold centroid. rewrite (ncols_shape2 _ y _ _ Sy), nth_map_seq by auto. cbn [plus].
      rewrite sumr_nth, T1. reflexivity. }
    assert (PS : 0 < INR (S n)) by (apply lt_0_INR; lia).
    split.
    + exists (fun _ => / INR (S n)). rewrite T1. split; [intros; left; now apply Rinv_0_lt_compat|]. split; [rewrite sumf_const; field; lra|].
      intros j Hj. rewrite at_mk2, CE by auto. unfold Rdiv. rewrite sumf_scal_l. ring.
    + intros j Hj. rewrite at_mk2. auto.
  - intros i Hi. eexists. split; [|rewrite at_mk2; unfold over; rewrite NS; reflexivity]. apply number_filter. intros s Hs. apply Z.eqb_eq.
  - exists (List.length (filter (fun s => (Z.leb 0 (loc s) && Z.ltb (loc s) (Z.of_nat (List.length tri)))%bool) (seq 0 NX))). split.
    + apply number_filter. intros s Hs. rewrite andb_true_iff, Z.leb_le, Z.ltb_lt. destruct (LOC s Hs) as [[A _]|[A _]]; lia.
    + rewrite (sumf_ext _ _ (fun i => INR (List.length (filter (fun s => Z.eqb s (Z.of_nat i)) (find Ys))) * / INR NX)) by (intros; rewrite at_mk2; reflexivity).
      rewrite sumf_scal_r, counts_sum, NS. reflexivity.
  - rewrite (sumf_ext _ _ (fun i => INR (List.length (filter (fun s => Z.eqb s (Z.of_nat i)) (find Ys))) * / INR NX)) by (intros; rewrite at_mk2; reflexivity).
    rewrite sumf_scal_r, counts_sum, NS. set (g := fun s => (Z.leb 0 (loc s) && Z.ltb (loc s) (Z.of_nat (List.length tri)))%bool). fold g. split.
    + intros E s Hs. assert (EL : List.length (filter g (seq 0 NX)) = List.length (seq 0 NX)).
      { rewrite seq_length. apply INR_eq. apply Rmult_eq_reg_r with (/ INR NX); [|apply Rinv_neq_0_compat; lra]. rewrite E. field. lra. }
      assert (Gs := proj1 (filter_all _ g _) EL s ltac:(apply in_seq; lia)). unfold g in Gs. apply andb_true_iff in Gs. destruct Gs as [G1 G2]. apply Z.leb_le in G1. apply Z.ltb_lt in G2.
      destruct (LOC s Hs) as [[A B1]|[A _]]; [|lia]. exists (nth (Z.to_nat (loc s)) tri []). split; auto. apply nth_In. lia.
    + intros HA. replace (List.length (filter g (seq 0 NX))) with NX; [field; lra|]. rewrite <- (seq_length NX 0) at 1. symmetry. apply filter_all.
      intros s Hs. apply in_seq in Hs. unfold g. rewrite andb_true_iff, Z.leb_le, Z.ltb_lt. destruct (LOC s ltac:(lia)) as [[A _]|[_ A]]; [lia|]. exfalso. destruct (HA s ltac:(lia)) as (t & T1 & T2). exact (A t T1 T2).
Qed.
Print Assumptions C45_zonotope_rule.

(** a triangulation that covers the image of the cube loses no mass *)
Theorem C45_covering : forall (G : gen) (U : Type) B ch delaunay d m n W1 vert NV N NX (w w' : world G U (nd R)) P Q,
  delaunay_ok delaunay -> s_W1 (d_subs d) = Some W1 -> shape W1 = [m; n] -> d_vertY d = Some vert -> shape vert = [NV; n] ->
  zonotope_quadrature_rule B ch delaunay d N (Z.of_nat NX) w = (Ok (P, Q), w') ->
  (forall D y tri find, maximin_design B ch vert N w = (Ok D, w) -> vstack vert D = Ok y -> delaunay y = Ok (tri, find) ->
     forall x, in_cube m x -> exists t, In t tri /\ in_simplex y n t (fun j => sumf m (fun c => x c * W1.[c, j]))) ->
  exists k, shape Q = [k; 1%nat] /\ sumf k (fun i => Q.[i, 0%nat]) = 1.
Proof.
  intros G U B ch delaunay d m n W1 vert NV N NX w w' P Q HD EW SW EV SV H CV.
  destruct (C45_zonotope_rule G U B ch delaunay d m n W1 vert NV N NX w w' P Q HD EW SW EV SV H) as (D & K & y & tri & loc & EM & _ & _ & Ey & (find & Ed) & _ & HX & R). cbv zeta in R.
  destruct R as (_ & SQ & _ & _ & _ & _ & T). exists (List.length tri). split; auto. apply T. intros s Hs. apply (CV D y tri find EM Ey Ed (fun c => nth (s * m + c) (fst (uniforms (-1) 1 (NX * m) (rng w))) 0)).
  intros c Hc. apply uniforms_range; [lra|nia].
Qed.
Print Assumptions C45_covering.
(** a triangulation for the case: four triangles around the fifth point *)
Definition fan : list (list nat) := [[0; 1; 4]; [0; 2; 4]; [2; 3; 4]; [1; 3; 4]]%nat.
Fixpoint locate (y : nd R) (tri : list (list nat)) (i : Z) (x : nat -> R) : Z :=
  match tri with
  | [] => (-1)%Z
  | t :: r => if sig_not_dec (in_simplex y 2 t x) then i else locate y r (i + 1) x
  end.
Definition delaunay_fan (y : nd R) : res (list (list nat) * (nd R -> list Z)) :=
  match shape y with
  | [5; 2]%nat => Ok (fan, fun Ys => map (fun s => locate y fan 0 (fun j => Ys.[s, j])) (seq 0 (nrows Ys)))
  | _ => Err LinAlgError
  end.
Lemma locate_spec : forall y x tri i, (0 <= i)%Z -> let v := locate y tri i x in
  ((i <= v < i + Z.of_nat (List.length tri))%Z /\ in_simplex y 2 (nth (Z.to_nat (v - i)) tri []) x) \/ (v = (-1)%Z /\ forall t, In t tri -> ~ in_simplex y 2 t x).
Proof.
  intros y x. induction tri as [|t tri IH]; intros i Hi v; unfold v; cbn [locate].
  - right. split; auto.
  - destruct (sig_not_dec _) as [I|N]; [apply NNPP in I|].
    + left. split; [cbn [List.length]; lia|]. rewrite Z.sub_diag. exact I.
    + specialize (IH (i + 1)%Z ltac:(lia)). cbv zeta in IH. set (u := locate y tri (i + 1) x) in *. clearbody u. destruct IH as [[A B1]|[A B1]].
      * left. split; [cbn [List.length]; lia|]. replace (Z.to_nat (u - i)) with (S (Z.to_nat (u - (i + 1)))) by lia. exact B1.
      * right. split; auto. intros t' [<-|Ht]; auto.
Qed.
Lemma delaunay_fan_ok : delaunay_ok delaunay_fan.
Proof.
  intros y V n tri find Sy E. unfold delaunay_fan in E. rewrite Sy in E. destruct V as [|[|[|[|[|[|V]]]]]]; try discriminate. destruct n as [|[|[|n]]]; try discriminate. injection E as <- <-. split.
  - intros t [<-|[<-|[<-|[<-|[]]]]]; (split; [reflexivity|]); simpl; intros v Hv; lia.
  - intros Ys q SY. rewrite map_length, seq_length, (nrows_shape2 _ Ys _ _ SY). split; auto. intros s Hs. cbv zeta. rewrite nth_map_seq by auto. cbn [plus].
    destruct (locate_spec y (fun j => Ys.[s, j]) fan 0 ltac:(lia)) as [[A B1]|[A B1]]; [left|right]; split; auto. now rewrite Z.sub_0_r in B1.
Qed.
(** the square with one design point, one sample, at (-1/2, 0) *)
Example C45_case : delaunay_ok delaunay_fan /\ exists P Q w',
  zonotope_quadrature_rule (const_backend (MR true (XArr (vec_of [/ 2; / 4])) (-1))) (fun _ => Ok sq_eqs) delaunay_fan
    (AVD DBounded (Subs None None (Some (mat_of [[1; 0]; [0; 1]])) None None None) 2 2 (Some sqv) None None None) 1 1 (toy_world tt : world toy_gen unit (nd R)) = (Ok (P, Q), w') /\
  sumf 4 (fun i => Q.[i, 0%nat]) = 1 /\ P.[0%nat, 0%nat] = 5 / 6.
Proof.
  split; [exact delaunay_fan_ok|]. set (x := vec_of [/ 2; / 4]). set (w0 := toy_world tt : world toy_gen unit (nd R)).
  destruct (maximin_run (G := toy_gen) (U := unit) (L := nd R) (const_backend (MR true (XArr x) (-1))) (fun _ => Ok sq_eqs) sqv 4 2 sq_eqs 1 (toy_world tt) eq_refl eq_refl) as [(i & e & _ & [_ F] & _)|(_ & o & Bt & E)].
  { exfalso. destruct F as [F|(v & F & Sv & _)]; [discriminate|]. injection F as <-. discriminate. }
  destruct Bt as [[-> Bt]|(k & v & _ & -> & [Gv _] & _)].
  { exfalso. specialize (Bt 0%nat _ ltac:(lia) ltac:(split; reflexivity)). cbn [mr_fun] in Bt. lra. }
  injection Gv as <-. cbn [mr_x] in E.
  assert (exists D, reshape [1; 2]%nat x = Ok D /\ shape D = [1; 2]%nat /\ D.[0%nat, 0%nat] = / 2 /\ D.[0%nat, 1%nat] = / 4) as (D & ED & SD & V0 & V1) by (eexists; split; [reflexivity|repeat split; reflexivity]).
  rewrite ED in E. change (Z.of_nat 1) with 1%Z in E. fold w0 in E.
  destruct (vstack_ok sqv D 4 1 2 sqv eq_refl SD) as (y & Ey & Sy & Y1 & Y2). 
  set (d := AVD DBounded (Subs None None (Some (mat_of [[1; 0]; [0; 1]])) None None None) 2 2 (Some sqv) None None None). set (BB := const_backend (MR true (XArr x) (-1))) in *.
  assert (RUN : exists P Q w', zonotope_quadrature_rule BB (fun _ => Ok sq_eqs) delaunay_fan d 1 1 w0 = (Ok (P, Q), w')).
  { unfold zonotope_quadrature_rule. cbn [d d_vertY d_subs s_W1 need]. unfold mbind at 1, mlift at 1. unfold mbind at 1, mlift at 1. unfold mbind at 1, mlift at 1. cbn [shape2 shape mat_of mk2 List.length nth].
    unfold mbind at 1. rewrite E. unfold mbind at 1, mlift at 1. rewrite Ey. unfold mbind at 1, mlift at 1. unfold delaunay_fan. rewrite Sy. cbn [Nat.add].
    unfold mbind at 1, mlift at 1. change (dimZ 1) with (Ok 1%nat). unfold mbind at 1. rewrite uniform2_run. unfold mbind at 1, mlift at 1.
    match goal with |- context [npdot ?a ?b] => rewrite (npdot2 a b 1 2 2 eq_refl eq_refl) end. unfold mbind at 1, mlift at 1. cbn [guard Nat.ltb Nat.leb].
    rewrite (ncols_shape2 _ y _ _ Sy). match goal with |- context [reshape ?a ?b] => change (reshape a b) with (reshape (shape b) b); rewrite (reshape_id _ b) end.
    eexists _, _, _. reflexivity. }
  destruct RUN as (P & Q & w' & R). exists P, Q, w'. split; [exact R|].
  destruct (C45_zonotope_rule toy_gen unit BB (fun _ => Ok sq_eqs) delaunay_fan d 2 2 (mat_of [[1; 0]; [0; 1]]) sqv 4 1 1 w0 w' P Q delaunay_fan_ok eq_refl eq_refl eq_refl eq_refl R)
    as (D' & K & y' & tri & loc & E' & _ & _ & Ey' & (find & Ed) & _ & _ & T). cbv zeta in T.
  rewrite E in E'. injection E' as <-. rewrite Ey in Ey'. injection Ey' as <-. unfold delaunay_fan in Ed. rewrite Sy in Ed. injection Ed as <- _. destruct T as (_ & _ & _ & T & _ & _ & S1).
  change (List.length fan) with 4%nat in *. split.
  - apply S1. intros s Hs. replace s with 0%nat by lia. exists [2; 3; 4]%nat. split; [simpl; auto|].
    exists (fun q => match q with O => 7 / 24 | S O => 9 / 24 | _ => / 3 end). split; [intros [|[|q]] _; lra|]. split; [cbn [List.length sumf]; lra|].
    assert (YV : forall j, (j < 2)%nat -> y.[2%nat, j] = sqv.[2%nat, j] /\ y.[3%nat, j] = sqv.[3%nat, j] /\ y.[4%nat, j] = D.[0%nat, j]).
    { intros j Hj. split; [apply Y1; lia|]. split; [apply Y1; lia|]. apply (Y2 0%nat j); lia. }
    intros [|[|j]] Hj; [| |lia]; destruct (YV _ Hj) as (A1 & A2 & A3); cbn [List.length sumf nth]; rewrite A1, A2, A3, ?V0, ?V1; unfold sqv, uniforms, w0; cbn; lra.
  - destruct (T 0%nat ltac:(lia)) as (_ & _ & _ & TP). rewrite TP by lia. cbn [fan nth sumf].
    assert (A0 : y.[0%nat, 0%nat] = 1) by (rewrite Y1 by lia; reflexivity). assert (A1 : y.[1%nat, 0%nat] = 1) by (rewrite Y1 by lia; reflexivity).
    assert (A4 : y.[4%nat, 0%nat] = / 2) by (rewrite <- V0; apply (Y2 0%nat 0%nat); lia). rewrite A0, A1, A4. simpl INR. lra.
Qed.
