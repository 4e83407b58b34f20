(** C107: the repository's own tests of the plots pass, and what they leave behind *)
From Coq Require Import String Reals Lra Lia List Arith ZArith Bool Permutation.
From Verif Require Import Prelude Py NumArr M_Tests M_Plotters M_TestsAS Properties_Plotters Properties_PlotErrors P_Notebooks.
Import ListNotations.
Open Scope R_scope.

(** the eighteen tests, each with the names of the pictures it writes; y1 and y2 are the points
    that test_ssp1 and test_ssp2 draw *)
Definition plot_tests (y1 y2 : nd R) : list (ptest * list string) :=
  [(test_eigenvalues, ["figs/evals_Output.eps"]); (test_eigenvalues_br, ["figs/evals_Output.eps"]); (test_eigenvalues_br_label, ["figs/evals_testing.eps"]);
   (test_subspace_errors, ["figs/subspace_testing.eps"]);
   (test_eigenvectors 1, ["figs/evecs_Output.eps"]); (test_eigenvectors 2, ["figs/evecs_Output.eps"]); (test_eigenvectors 3, ["figs/evecs_Output.eps"]); (test_eigenvectors 4, ["figs/evecs_Output.eps"]);
   (test_eigenvectors_labels 1, ["figs/evecs_data.eps"]); (test_eigenvectors_labels 2, ["figs/evecs_data.eps"]); (test_eigenvectors_labels 3, ["figs/evecs_data.eps"]); (test_eigenvectors_labels 4, ["figs/evecs_data.eps"]);
   (test_eigenvectors_br 1, ["figs/evecs_data.eps"]); (test_eigenvectors_br 2, ["figs/evecs_data.eps"]); (test_eigenvectors_br 3, ["figs/evecs_data.eps"]); (test_eigenvectors_br 4, ["figs/evecs_data.eps"]);
   (test_ssp1 y1, ["figs/ssp1_Output.eps"]); (test_ssp2 y2, ["figs/ssp1_Output.eps"; "figs/ssp2_Output.eps"])]%string.

(** a test passes from w, shows one figure per name and saves it under that name *)
Definition passes_saving (t : ptest) (names : list string) : Prop := forall w, exists figs w', t w = (Ok tt, w') /\ List.length figs = List.length names /\
  p_open w' = [] /\ p_shown w' = p_shown w ++ p_open w ++ figs /\ p_files w' = p_files w ++ combine names figs.

Lemma evecs_pass : forall c br labs lab, (1 <= c)%nat -> match br with None => True | Some b => shape b = [4%nat; (2 * c)%nat] end ->
  passes_saving (eigenvectors (eye4 c) br labs lab None) [("figs/evecs_" ++ name_of lab ++ ".eps")%string].
Proof.
  intros c br labs lab Hc Hb w. destruct (C64_eigenvectors (eye4 c) 4 c br labs lab None w eq_refl Hc Hb I) as (f & w' & E & (D1 & D2 & D3) & _). exists [f], w'. auto.
Qed.
Lemma evals_pass : forall br lab, match br with None => True | Some b => shape b = [6%nat; 2%nat] /\ forall i, (i < 6)%nat -> b.[i, 0%nat] = 5/10 * / 10 ^ S i /\ b.[i, 1%nat] = 13/10 * / 10 ^ S i end ->
  passes_saving (eigenvalues e6 br lab None) [("figs/evals_" ++ name_of lab ++ ".eps")%string].
Proof.
  intros br lab Hb w. assert (P : forall i, 0 < / 10 ^ S i) by (intros; apply Rinv_0_lt_compat, pow_lt; lra).
  destruct (C63_eigenvalues e6 6 br lab None w eq_refl ltac:(lia)) as (f & w' & E & (D1 & D2 & D3) & _); [| |exact I|exists [f], w'; auto].
  - intros i _. unfold e6. rewrite at_mk2. left. apply P.
  - destruct br as [b|]; [|exact I]. destruct Hb as [Sb Vb]. exists 2%nat. split; [exact Sb|]. split; [lia|]. intros i Hi. destruct (Vb i Hi) as [-> ->]. unfold e6. rewrite at_mk2. specialize (P i). lra.
Qed.
Lemma e6_br_ok : exists b, e6_br = Ok b /\ shape b = [6%nat; 2%nat] /\ forall i, (i < 6)%nat -> b.[i, 0%nat] = 5/10 * / 10 ^ S i /\ b.[i, 1%nat] = 13/10 * / 10 ^ S i.
Proof.
  destruct (hstack2 (amap (Rmult (5/10)) e6) (amap (Rmult (13/10)) e6) 6 1 1 eq_refl eq_refl) as (b & E & S & V). exists b. split; [exact E|]. split; [exact S|].
  intros i Hi. rewrite !V. split; reflexivity.
Qed.
Lemma ssp1_pass : forall y, shape y = [10%nat; 1%nat] -> passes_saving (test_ssp1 y) ["figs/ssp1_Output.eps"%string].
Proof.
  intros y H w. destruct (C65_summary_partial y (amap sin y) 10 1 None None w H ltac:(exact H) ltac:(lia) I) as (A & _). destruct (A eq_refl) as (g & w' & E & (D1 & D2 & D3) & _).
  exists [g], w'. auto.
Qed.
Lemma ssp2_pass : forall y, shape y = [20%nat; 2%nat] -> passes_saving (test_ssp2 y) ["figs/ssp1_Output.eps"; "figs/ssp2_Output.eps"]%string.
Proof.
  intros y H w. unfold test_ssp2. rewrite (nrows_shape2 _ y _ _ H). set (v := fun i => sin (y.[i, 0%nat]) * sin (y.[i, 1%nat])).
  destruct (C95_columns_or_flat 20 v (mk1 20 v) (mk2 20 1 (fun i _ => v i))) as (_ & Q & _); [right; split; reflexivity|left; split; reflexivity|].
  rewrite Q. destruct (C65_summary_partial y (mk2 20 1 (fun i _ => v i)) 20 2 None None w H eq_refl ltac:(lia) I) as (_ & A & _).
  destruct (A eq_refl) as (g & h & w' & E & (D1 & D2 & D3) & _). exists [g; h], w'. auto.
Qed.

(** Each test passes, whatever figures are open, shown and saved before it, whatever points are
    drawn, and whether or not the directory figs exists.  It shows one figure per picture it
    saves, besides those left open before; tearDown finds none open. *)
Theorem C107_each_passes : forall y1 y2 t names, shape y1 = [10%nat; 1%nat] -> shape y2 = [20%nat; 2%nat] -> In (t, names) (plot_tests y1 y2) ->
  forall w, exists figs w', t w = (Ok tt, w') /\ with_teardown t w = (Ok tt, w') /\ List.length figs = List.length names /\
    p_open w' = [] /\ p_shown w' = p_shown w ++ p_open w ++ figs /\ p_files w' = p_files w ++ combine names figs.
Proof.
  intros y1 y2 t names H1 H2 Ht.
  assert (P : passes_saving t names).
  { destruct e6_br_ok as (b & Eb & Sb & Vb).
    assert (B1 : passes_saving test_eigenvalues_br ["figs/evals_Output.eps"%string]) by (intros w; unfold test_eigenvalues_br, mbind, mlift; rewrite Eb; exact (evals_pass (Some b) None (conj Sb Vb) w)).
    assert (B2 : passes_saving test_eigenvalues_br_label ["figs/evals_testing.eps"%string]) by (intros w; unfold test_eigenvalues_br_label, mbind, mlift; rewrite Eb; exact (evals_pass (Some b) (Some "testing"%string) (conj Sb Vb) w)).
    assert (B3 : passes_saving test_subspace_errors ["figs/subspace_testing.eps"%string]).
    { intros w. destruct (C63_subspace_errors (rows_of [[1/100; 5/100; 1/10]; [1/10; 25/100; 5/10]; [2/10; 4/10; 8/10]]) 3 3 (Some "testing"%string) None w eq_refl ltac:(lia) ltac:(lia)) as (f & w' & E & (D1 & D2 & D3) & _); [|exact I|exists [f], w'; auto].
      intros [|[|[|i]]] Hi; try lia; cbn; lra. }
    unfold plot_tests in Ht. cbn [In] in Ht.
    destruct Ht as [E|[E|[E|[E|[E|[E|[E|[E|[E|[E|[E|[E|[E|[E|[E|[E|[E|[E|[]]]]]]]]]]]]]]]]]]]; injection E as <- <-;
      [apply (evals_pass None None I)|exact B1|exact B2|exact B3| | | | | | | | | | | | |exact (ssp1_pass y1 H1)|exact (ssp2_pass y2 H2)].
    1-4: apply (evecs_pass _ None None None); [lia|exact I].
    1-4: apply (evecs_pass _ None (Some abcd) (Some "data"%string)); [lia|exact I].
    all: apply (evecs_pass _ (Some (eye4_br _)) (Some abcd) (Some "data"%string)); [lia|reflexivity]. }
  intros w. destruct (P w) as (figs & w' & E & L & O & Sh & F). exists figs, w'. split; [exact E|]. split; [|auto].
  unfold with_teardown. rewrite E. destruct w' as [o s f d]. cbn in O. subst o. reflexivity.
Qed.
Print Assumptions C107_each_passes.

(** ** what the pictures show *)

(** the figure that t shows from w when it passes *)
Definition shows (t : ptest) (w : pyplot) (f : fig) : Prop := exists w', t w = (Ok tt, w') /\ p_shown w' = p_shown w ++ p_open w ++ [f].

(** The eigenvector tests: a picture with a panel for each of the c columns, and in panel j the
    j-th unit vector; with bootstrap ranges the band is (0.9, 1) at its 1 and (-0.1, 0.1) at its
    zeros.  The eigenvalue tests: the curve 10^-1, ..., 10^-6, with the band from half to 1.3
    times it. *)
Theorem C107_pictures : forall w,
  (forall c t br, (1 <= c <= 4)%nat -> In (t, br) [(test_eigenvectors c, false); (test_eigenvectors_labels c, false); (test_eigenvectors_br c, true)] ->
     exists f, shows t w f /\ List.length (axes_of f) = c /\ forall j, (j < c)%nat ->
       let unit i := if Nat.eqb i j then 1 else 0 in let a := nth j (axes_of f) [] in
       lines_of a = [[(1, unit 0%nat); (2, unit 1%nat); (3, unit 2%nat); (4, unit 3%nat)]] /\
       bands_of a = if br : bool then let lo i := if Nat.eqb i j then 9/10 else -1/10 in let hi i := if Nat.eqb i j then 1 else 1/10 in
                                      [[(1, lo 0%nat, hi 0%nat); (2, lo 1%nat, hi 1%nat); (3, lo 2%nat, hi 2%nat); (4, lo 3%nat, hi 3%nat)]] else []) /\
  (forall t br, In (t, br) [(test_eigenvalues, false); (test_eigenvalues_br, true); (test_eigenvalues_br_label, true)] ->
     exists f, shows t w f /\ (exists l, lines_of f = [l] /\ List.length l = 6%nat /\ forall i, (i < 6)%nat -> nth i l (0, 0) = (INR (i + 1), / 10 ^ (i + 1))) /\
       if br : bool then exists b, bands_of f = [b] /\ List.length b = 6%nat /\ forall i, (i < 6)%nat -> nth i b (0, 0, 0) = (INR (i + 1), 1/2 * / 10 ^ (i + 1), 13/10 * / 10 ^ (i + 1)) else bands_of f = []).
Proof.
  intros w. split.
  - intros c t br Hc Ht.
    assert (V : forall c br labs lab, (1 <= c <= 4)%nat -> match br with None => True | Some b => shape b = [4%nat; (2 * c)%nat] end -> exists f, shows (eigenvectors (eye4 c) br labs lab None) w f /\ List.length (axes_of f) = c /\
      forall j, (j < c)%nat -> let a := nth j (axes_of f) [] in lines_of a = [curve_pts 4 (fun i => (eye4 c).[i, j])] /\
        bands_of a = match br with None => [] | Some b => [band_pts 4 (fun i => b.[i, (2 * j)%nat]) (fun i => b.[i, (2 * j + 1)%nat])] end).
    { intros q b labs lab Hq Hb. destruct (C64_eigenvectors (eye4 q) 4 q b labs lab None w eq_refl ltac:(lia) Hb I) as (f & w' & E & (_ & D2 & _) & LA & _ & P & _). exists f. split; [exists w'; auto|]. split; [lia|].
      intros j Hj a. destruct (P j ltac:(lia)) as (L & N & _). auto. }
    assert (N2 : INR (1 + 1) = 2 /\ INR (2 + 1) = 3 /\ INR (3 + 1) = 4 /\ INR (0 + 1) = 1) by (cbn; repeat split; lra). destruct N2 as (N2 & N3 & N4 & N1).
    assert (EV : forall i j, (eye4_br c).[i, (2 * j)%nat] = (if Nat.eqb i j then 9/10 else -1/10) /\ (eye4_br c).[i, (2 * j + 1)%nat] = if Nat.eqb i j then 1 else 1/10).
    { intros i j. unfold eye4_br. rewrite !at_mk2. replace (2 * j / 2)%nat with j by (rewrite Nat.mul_comm, Nat.div_mul; lia). replace ((2 * j + 1) / 2)%nat with j by (apply Nat.div_unique with 1%nat; lia).
      assert (E0 : Nat.even (2 * j) = true) by (rewrite Nat.even_mul; reflexivity). assert (E1 : Nat.even (2 * j + 1) = false) by (rewrite Nat.add_comm, Nat.even_add_mul_2; reflexivity). rewrite E0, E1. destruct (Nat.eqb i j); split; lra. }
    destruct Ht as [E|[E|[E|[]]]]; injection E as <- <-;
      [destruct (V c None None None Hc I) as (f & SH & LA & P)|destruct (V c None (Some abcd) (Some "data"%string) Hc I) as (f & SH & LA & P)|destruct (V c (Some (eye4_br c)) (Some abcd) (Some "data"%string) Hc eq_refl) as (f & SH & LA & P)];
      exists f; (split; [exact SH|]); (split; [exact LA|]); intros j Hj; destruct (P j Hj) as (L & N); cbv zeta; rewrite L, N; unfold curve_pts, band_pts; cbn [seq map]; rewrite N1, N2, N3, N4; (split; [reflexivity|]); try reflexivity.
    rewrite !(fun i => proj1 (EV i j)), !(fun i => proj2 (EV i j)). reflexivity.
  - assert (P : forall i, 0 < / 10 ^ S i) by (intros; apply Rinv_0_lt_compat, pow_lt; lra).
    assert (V : forall br lab, match br with None => True | Some b => shape b = [6%nat; 2%nat] /\ forall i, (i < 6)%nat -> b.[i, 0%nat] = 5/10 * / 10 ^ S i /\ b.[i, 1%nat] = 13/10 * / 10 ^ S i end ->
      exists f, shows (eigenvalues e6 br lab None) w f /\ (exists l, lines_of f = [l] /\ List.length l = 6%nat /\ forall i, (i < 6)%nat -> nth i l (0, 0) = (INR (i + 1), / 10 ^ (i + 1))) /\
        if match br with None => false | Some _ => true end then exists b, bands_of f = [b] /\ List.length b = 6%nat /\ forall i, (i < 6)%nat -> nth i b (0, 0, 0) = (INR (i + 1), 1/2 * / 10 ^ (i + 1), 13/10 * / 10 ^ (i + 1)) else bands_of f = []).
    { intros br lab Hb. destruct (C63_eigenvalues e6 6 br lab None w eq_refl ltac:(lia)) as (f & w' & E & (_ & D2 & _) & L & N & _); [| |exact I|].
      - intros i _. unfold e6. rewrite at_mk2. left. apply P.
      - destruct br as [b|]; [|exact I]. destruct Hb as [Sb Vb]. exists 2%nat. split; [exact Sb|]. split; [lia|]. intros i Hi. destruct (Vb i Hi) as [-> ->]. unfold e6. rewrite at_mk2. specialize (P i). lra.
      - exists f. split; [exists w'; auto|]. split.
        + eexists. split; [exact L|]. split; [reflexivity|]. intros i Hi. unfold curve_pts. set (g := fun i => (INR (i + 1), e6.[i, 0%nat])). rewrite (nth_indep _ (0, 0) (g 0%nat)) by (rewrite map_length, seq_length; exact Hi). rewrite map_nth, seq_nth by exact Hi. unfold g, e6. rewrite at_mk2, Nat.add_0_l. now replace (S i) with (i + 1)%nat by lia.
        + destruct br as [b|]; [|exact N]. destruct Hb as [Sb Vb]. eexists. split; [exact N|]. split; [reflexivity|]. intros i Hi. unfold band_pts. set (g := fun i => (INR (i + 1), b.[i, 0%nat], b.[i, 1%nat])). rewrite (nth_indep _ (0, 0, 0) (g 0%nat)) by (rewrite map_length, seq_length; exact Hi).
          rewrite map_nth, seq_nth by exact Hi. unfold g. destruct (Vb i Hi) as [E0 E1]. rewrite Nat.add_0_l, E0, E1. replace (S i) with (i + 1)%nat by lia. replace (5 / 10) with (1 / 2) by lra. reflexivity. }
    destruct e6_br_ok as (b & Eb & Sb & Vb).
    assert (BR : forall lab f, shows (eigenvalues e6 (Some b) lab None) w f -> shows (dom br <- mlift e6_br; eigenvalues e6 (Some br) lab None) w f).
    { intros lab f (w' & E & S). exists w'. split; [|exact S]. unfold mbind, mlift. rewrite Eb. exact E. }
    intros t br [E|[E|[E|[]]]]; injection E as <- <-.
    + exact (V None None I).
    + destruct (V (Some b) None (conj Sb Vb)) as (f & A & C). exists f. split; [exact (BR _ _ A)|exact C].
    + destruct (V (Some b) (Some "testing"%string) (conj Sb Vb)) as (f & A & C). exists f. split; [exact (BR _ _ A)|exact C].
Qed.
Print Assumptions C107_pictures.

(** ** a whole run *)

(** the tests of a list one after the other, each followed by tearDown; the results *)
Fixpoint run_tests (l : list ptest) (w : pyplot) : list (res unit) * pyplot :=
  match l with
  | [] => ([], w)
  | t :: l => let (r, w') := with_teardown t w in let (rs, w'') := run_tests l w' in (r :: rs, w'')
  end.
Lemma run_ok : forall y1 y2 l, shape y1 = [10%nat; 1%nat] -> shape y2 = [20%nat; 2%nat] -> incl l (plot_tests y1 y2) ->
  forall w, exists rs figs w', run_tests (map fst l) w = (rs, w') /\ (forall r, In r rs -> r = Ok tt) /\ List.length rs = List.length l /\
    p_files w' = p_files w ++ combine (flat_map snd l) figs /\ List.length figs = List.length (flat_map snd l) /\
    (l <> [] -> p_shown w' = p_shown w ++ p_open w ++ figs).
Proof.
  intros y1 y2 l H1 H2. induction l as [|[t names] l IH]; intros HI w.
  - exists [], [], w. cbn. rewrite app_nil_r. repeat split; auto; easy.
  - destruct (C107_each_passes y1 y2 t names H1 H2 (HI _ (or_introl eq_refl)) w) as (figs & w1 & _ & E & L & O & Sh & F).
    destruct (IH (fun x Hx => HI x (or_intror Hx)) w1) as (rs & figs2 & w2 & E2 & A & LL & F2 & L2 & Sh2).
    exists (Ok tt :: rs), (figs ++ figs2), w2. cbn [map fst run_tests flat_map snd]. rewrite E, E2. split; [reflexivity|]. split; [intros r [<-|Hr]; auto|]. split; [cbn; lia|]. split; [|split].
    + rewrite F2, F, <- app_assoc. f_equal. clear -L. revert figs L. induction names as [|a names IHn]; intros [|f figs] L; try discriminate L; [reflexivity|]. cbn. f_equal. apply IHn. now injection L.
    + rewrite !app_length. lia.
    + intros _. destruct l as [|p l]; [destruct figs2 as [|g figs2]; [|discriminate L2]; cbn in E2; injection E2 as _ <-; rewrite app_nil_r; exact Sh|].
      rewrite Sh2 by discriminate. rewrite Sh, O. cbn [app]. now rewrite <- !app_assoc.
Qed.

(** Run in any order the eighteen tests pass and write nineteen pictures, but under seven names:
    twelve pictures are written over. *)
Theorem C107_overwritten : forall y1 y2 l w, shape y1 = [10%nat; 1%nat] -> shape y2 = [20%nat; 2%nat] -> Permutation l (plot_tests y1 y2) ->
  exists rs w' new, run_tests (map fst l) w = (rs, w') /\ List.length rs = 18%nat /\ (forall r, In r rs -> r = Ok tt) /\
    p_files w' = p_files w ++ new /\ List.length new = 19%nat /\
    exists names, NoDup names /\ List.length names = 7%nat /\ forall s, In s (map fst new) <-> In s names.
Proof.
  intros y1 y2 l w H1 H2 HP. destruct (run_ok y1 y2 l H1 H2 (fun x Hx => Permutation_in _ HP Hx) w) as (rs & figs & w' & E & A & L & F & LF & _).
  assert (PN : Permutation (flat_map snd l) (flat_map snd (plot_tests y1 y2))) by now apply Permutation_flat_map.
  assert (LN := Permutation_length PN). change (List.length (flat_map snd (plot_tests y1 y2))) with 19%nat in LN.
  exists rs, w', (combine (flat_map snd l) figs). split; [exact E|]. split; [rewrite L, (Permutation_length HP); reflexivity|]. split; [exact A|]. split; [exact F|].
  split; [rewrite combine_length; lia|].
  exists (nodup string_dec (flat_map snd (plot_tests y1 y2))). split; [apply NoDup_nodup|]. split; [reflexivity|].
  intros s. rewrite nodup_In. assert (MF : map fst (combine (flat_map snd l) figs) = flat_map snd l).
  { revert LF. generalize (flat_map snd l). clear. intros q. revert figs. induction q as [|a q IH]; intros [|f figs] L; try discriminate L; [reflexivity|]. cbn. f_equal. apply IH. now injection L. }
  rewrite MF. split; apply Permutation_in; auto using Permutation_sym.
Qed.
Print Assumptions C107_overwritten.

(** A test may fail and leave a figure open, which the next plot would show besides its own
    (C95).  With tearDown it does not: after any tests, passed or failed, no figure is open, and a
    test that follows them shows its own figures alone. *)
Theorem C107_teardown :
  (forall l w rs w', l <> [] -> run_tests l w = (rs, w') -> p_open w' = []) /\
  (forall l w rs w1 t f, l <> [] -> run_tests l w = (rs, w1) -> shows t w1 f -> exists w2, run_tests (l ++ [t]) w = (rs ++ [Ok tt], w2) /\ p_shown w2 = p_shown w1 ++ [f]) /\
  (exists t, forall w, exists w1, t w = (Err ValueError, w1) /\ List.length (p_open w1) = S (List.length (p_open w)) /\
     exists f1 f2 f3 w2 w3, test_eigenvalues w1 = (Ok tt, w2) /\ p_shown w2 = p_shown w ++ p_open w ++ [f1; f2] /\
       run_tests [t; test_eigenvalues] w = ([Err ValueError; Ok tt], w3) /\ p_shown w3 = p_shown w ++ [f3]).
Proof.
  assert (OPEN : forall l w rs w', l <> [] -> run_tests l w = (rs, w') -> p_open w' = []).
  { induction l as [|t l IH]; [easy|]. intros w rs w' _ E. cbn [run_tests] in E. destruct (with_teardown t w) as [r w1] eqn:ET. destruct (run_tests l w1) as [rs1 w2] eqn:ER. injection E as <- <-.
    destruct l as [|t2 l]; [|exact (IH _ _ _ ltac:(discriminate) ER)]. cbn in ER. injection ER as _ <-. unfold with_teardown in ET. destruct (t w) as [r' w1']. injection ET as _ <-. reflexivity. }
  assert (APP : forall l w rs w1 t f, run_tests l w = (rs, w1) -> shows t w1 f -> exists w2, run_tests (l ++ [t]) w = (rs ++ [Ok tt], w2) /\ p_shown w2 = p_shown w1 ++ p_open w1 ++ [f]).
  { induction l as [|t l IH]; intros w rs w1 t' f E SH.
    - cbn in E. injection E as <- <-. destruct SH as (w2 & E2 & S2). cbn [app run_tests]. unfold with_teardown. rewrite E2. eexists. split; [reflexivity|exact S2].
    - cbn [run_tests] in E. destruct (with_teardown t w) as [r w3] eqn:ET. destruct (run_tests l w3) as [rs1 w4] eqn:ER. injection E as <- <-. destruct (IH _ _ _ _ _ ER SH) as (w5 & E5 & S5).
      exists w5. cbn [app run_tests]. rewrite ET, E5. split; [reflexivity|exact S5]. }
  split; [exact OPEN|]. split.
  { intros l w rs w1 t f NE E SH. destruct (APP l w rs w1 t f E SH) as (w2 & E2 & S2). exists w2. split; [exact E2|]. rewrite S2, (OPEN _ _ _ _ NE E). reflexivity. }
  exists (eigenvalues e1 (Some bad_br) None None). intros w.
  assert (HE : holds e1 1 (fun _ => 1)) by (right; split; [reflexivity | intros; unfold e1; rewrite at_mk1 by assumption; reflexivity]).
  destruct C95_misfits as (M1 & _). destruct (proj1 (M1 e1 1%nat _ bad_br 2%nat 2%nat None None w HE eq_refl) ltac:(lia) ltac:(lia)) as (w1 & E1 & S1 & F1 & g & O1).
  exists w1. split; [exact E1|]. split; [rewrite O1, app_length; cbn; lia|].
  destruct (proj2 (C107_pictures w1) test_eigenvalues false ltac:(now left)) as (f & (w2 & E2 & S2) & _).
  assert (RT : run_tests [eigenvalues e1 (Some bad_br) None None] w = ([Err ValueError], PP [] (p_shown w1) (p_files w1) (p_dir w1))) by (cbn [run_tests]; unfold with_teardown; now rewrite E1).
  destruct (proj2 (C107_pictures (PP [] (p_shown w1) (p_files w1) (p_dir w1))) test_eigenvalues false ltac:(now left)) as (f' & SH & _).
  destruct (APP _ _ _ _ _ _ RT SH) as (w3 & E3 & S3). exists g, f, f', w2, w3.
  split; [exact E2|]. split; [rewrite S2, O1, S1, <- app_assoc; reflexivity|]. split; [exact E3|]. rewrite S3. cbn [p_shown p_open app]. now rewrite S1.
Qed.
Print Assumptions C107_teardown.

(** points as the tests draw them, and a session in which a figure has been left open *)
Example C107_case : let y1 := mk2 10 1 (fun i _ => INR i / 10) in let y2 := mk2 20 2 (fun i j => INR i / 20 - INR j / 2) in
  let w := PP [[IStyle "left over"]] [] [] false in
  exists rs w', run_tests (map fst (plot_tests y1 y2)) w = (rs, w') /\ (forall r, In r rs -> r = Ok tt) /\ List.length (p_files w') = 19%nat /\ List.length (p_shown w') = 20%nat.
Proof.
  intros y1 y2 w. destruct (run_ok y1 y2 (plot_tests y1 y2) eq_refl eq_refl (fun x Hx => Hx) w) as (rs & figs & w' & E & A & _ & F & LF & Sh).
  exists rs, w'. split; [exact E|]. split; [exact A|]. change (List.length (flat_map snd (plot_tests y1 y2))) with 19%nat in LF.
  rewrite F, Sh by discriminate. cbn [w p_files p_shown p_open app List.length]. rewrite combine_length, LF. split; reflexivity.
Qed.
