(** Properties C63-C66: what utils/plotters.py draws, shows and saves. *)
From Coq Require Import String Reals Lra Lia List Arith ZArith Bool.
From Verif Require Import Prelude Py NumArr M_Plotters P_Plotters.
Import ListNotations.
Open Scope R_scope.

(** what a figure contains *)
Definition lines_of (f : fig) : list (list (R * R)) := flat_map (fun it => match it with ILine _ p => [p] | _ => [] end) f.
Definition bands_of (f : fig) : list (list (R * R * R)) := flat_map (fun it => match it with IBand p => [p] | _ => [] end) f.
Definition clouds_of (f : fig) : list (list (R * R * R)) := flat_map (fun it => match it with IScatter p _ _ => [p] | _ => [] end) f.
Definition windows_of (f : fig) : list (R * R * R * R) :=
  flat_map (fun it => match it with IAxis a b c d => [(a, b, c, d)] | _ => [] end) f.
Definition titles_of (f : fig) : list string :=
  flat_map (fun it => match it with IText p t => if String.eqb p "title" then [t] else [] | _ => [] end) f.
(** everything written: on the axes and as titles; where the ticks are *)
Definition texts_of (f : fig) : list (string * string) := flat_map (fun it => match it with IText p t => [(p, t)] | _ => [] end) f.
Definition marks_of (f : fig) : list (list R) := flat_map (fun it => match it with IXTicks x _ => [x] | _ => [] end) f.
Definition hulls_of (f : fig) : list (nd R) := flat_map (fun it => match it with IHull p => [p] | _ => [] end) f.
(** the values between which the colours of a scatter plot run *)
Definition colours_of (f : fig) : list (R * R) := flat_map (fun it => match it with IScatter _ a b => [(a, b)] | _ => [] end) f.
(** a is the smallest, b the largest of v 0, .., v (k - 1) *)
Definition extremes (k : nat) (v : nat -> R) (a b : R) : Prop :=
  (exists i, (i < k)%nat /\ a = v i) /\ (exists i, (i < k)%nat /\ b = v i) /\ forall i, (i < k)%nat -> a <= v i <= b.
(** the same for two sequences: a of the first, b of the second *)
Definition range_of (k : nat) (lo hi : nat -> R) (a b : R) : Prop :=
  (exists i, (i < k)%nat /\ a = lo i) /\ (exists i, (i < k)%nat /\ b = hi i) /\ forall i, (i < k)%nat -> a <= lo i /\ hi i <= b.
Definition in_window (w : R * R * R * R) (x y : R) : Prop :=
  match w with (a, b, c, d) => a <= x <= b /\ c <= y <= d end.

(** the call shows the figures [figs] (after those still open), leaves none open
    and writes the files [saved] *)
Definition displays (w w' : pyplot) (figs : list fig) (saved : list (string * fig)) : Prop :=
  p_open w' = [] /\ p_shown w' = p_shown w ++ p_open w ++ figs /\ p_files w' = p_files w ++ saved.
Definition name_of (lab : option string) : string := match lab with Some s => s | None => "Output"%string end.
(** the options in force and the state in which they are used: without options
    files are wanted, of type .eps, and the directory figs is there *)
Definition in_force (opts : option popts) (w : pyplot) : popts * pyplot :=
  match opts with None => (PO true ".eps", PP (p_open w) (p_shown w) (p_files w) true) | Some o => (o, w) end.
Definition can_save (opts : option popts) (w : pyplot) : Prop :=
  match opts with None => True | Some o => o_savefigs o = true -> p_dir w = true end.
Definition file_if (opts : option popts) (stem : string) (lab : option string) (f : fig) : list (string * fig) :=
  match opts with
  | None => [(("figs/" ++ stem ++ name_of lab ++ ".eps")%string, f)]
  | Some o => if o_savefigs o then [(("figs/" ++ stem ++ name_of lab ++ o_figtype o)%string, f)] else []
  end.

(** the curve (1, v 0), (2, v 1), ... and the band between lo and hi *)
Definition curve_pts (k : nat) (v : nat -> R) : list (R * R) := map (fun i => (INR (i + 1), v i)) (seq 0 k).
Definition band_pts (k : nat) (lo hi : nat -> R) : list (R * R * R) := map (fun i => (INR (i + 1), lo i, hi i)) (seq 0 k).

Lemma combine_curve : forall k v, combine (range1 k) (map v (seq 0 k)) = curve_pts k v.
Proof. intros. rewrite range1_map. apply combine_map. Qed.
Lemma combine_band : forall k lo hi, combine (combine (range1 k) (map lo (seq 0 k))) (map hi (seq 0 k)) = band_pts k lo hi.
Proof. intros. rewrite range1_map, combine_map, combine_map. reflexivity. Qed.

Ltac lft E := rewrite (mb _ _ _ _ _ (ml _ _ _ E)).
Ltac evd := first
  [ erewrite (mb _ _ _ _ _ (figure_ev _ _ _ _)) | erewrite (mb _ _ _ _ _ (draw_ev _ _ _ _ _ _)) | erewrite (mb _ _ _ _ _ (draws_ev _ _ _ _ _ _))
  | erewrite mb by (apply plot_ev; rewrite ?len_range1, ?len_map_seq; reflexivity)
  | erewrite mb by (apply fill_ev; rewrite ?len_range1, ?len_map_seq; reflexivity) ].

(** opts=None means the default options *)
Lemma by_opts : forall {A} (P : M pyplot A) (k : popts -> M pyplot A) opts w, P = mbind (get_opts opts) k ->
  P w = k (fst (in_force opts w)) (snd (in_force opts w)).
Proof. intros A P k [o|] w ->; reflexivity. Qed.

Lemma range_ok : forall k lo hi a b,
  In a (map lo (seq 0 k)) -> (forall x, In x (map lo (seq 0 k)) -> a <= x) ->
  In b (map hi (seq 0 k)) -> (forall x, In x (map hi (seq 0 k)) -> x <= b) -> range_of k lo hi a b.
Proof.
  intros k lo hi a b A2 A3 B2 B3. apply in_map_iff in A2. apply in_map_iff in B2. destruct A2 as (i & <- & Hi), B2 as (j & <- & Hj).
  apply in_seq in Hi. apply in_seq in Hj. split; [exists i; split; [lia | reflexivity] |]. split; [exists j; split; [lia | reflexivity] |].
  intros l Hl. split; [apply A3 | apply B3]; apply in_map_iff; exists l; (split; [reflexivity | apply in_seq; lia]).
Qed.
Lemma entries_col : forall (e : nd R) k, shape e = [k; 1%nat] -> entries e = map (fun i => e.[i, 0%nat]) (seq 0 k).
Proof.
  intros e k H. unfold entries, size. rewrite H. cbn [prodn]. replace (k * (1 * 1))%nat with k by lia. apply map_ext_in. intros i Hi.
  cbn [unravel prodn]. change (1 * 1)%nat with 1%nat. rewrite Nat.mod_1_r, !Nat.div_1_r. reflexivity.
Qed.

Theorem C63_eigenvalues : forall (e : nd R) (k : nat) (e_br : option (nd R)) lab opts w,
  shape e = [k; 1%nat] -> (0 < k)%nat -> (forall i, (i < k)%nat -> 0 <= e.[i, 0%nat]) ->
  match e_br with
  | None => True
  | Some B => exists c, shape B = [k; c] /\ (2 <= c)%nat /\
      forall i, (i < k)%nat -> 0 <= B.[i, 0%nat] <= e.[i, 0%nat] /\ e.[i, 0%nat] <= B.[i, 1%nat]
  end ->
  can_save opts w ->
  exists f w', eigenvalues e e_br lab opts w = (Ok tt, w') /\ displays w w' [f] (file_if opts "evals_" lab f) /\
    lines_of f = [curve_pts k (fun i => e.[i, 0%nat])] /\
    bands_of f = match e_br with None => [] | Some B => [band_pts k (fun i => B.[i, 0%nat]) (fun i => B.[i, 1%nat])] end /\
    texts_of f = [("xlabel", "Index"); ("ylabel", "Eigenvalues"); ("title", name_of lab)]%string /\
    marks_of f = [map INR (seq 1 k)] /\
    exists lo hi, let win := (0, INR (k + 1), 1/10 * lo, 10 * hi) in windows_of f = [win] /\
      match e_br with
      | None => range_of k (fun i => e.[i, 0%nat]) (fun i => e.[i, 0%nat]) lo hi
      | Some B => range_of k (fun i => B.[i, 0%nat]) (fun i => B.[i, 1%nat]) lo hi
      end /\
      forall i, (i < k)%nat -> in_window win (INR (i + 1)) (e.[i, 0%nat]) /\
        match e_br with None => True | Some B => in_window win (INR (i + 1)) (B.[i, 0%nat]) /\ in_window win (INR (i + 1)) (B.[i, 1%nat]) end.
Proof.
  intros e k e_br lab opts w He Hk Hpos Hbr Hsave.
  assert (IX : forall i, (i < k)%nat -> 0 <= INR (i + 1) <= INR (k + 1)).
  { intros i Hi. split; [apply pos_INR | apply le_INR; lia]. }
  set (ow := in_force opts w).
  assert (S1 : o_savefigs (fst ow) = true -> p_dir (snd ow) = true) by (unfold ow; destruct opts; simpl in *; auto).
  assert (S2 : p_open (snd ow) = p_open w /\ p_shown (snd ow) = p_shown w /\ p_files (snd ow) = p_files w) by (unfold ow; destruct opts; simpl; auto).
  assert (S3 : forall f, (if o_savefigs (fst ow) then [(("figs/" ++ "evals_" ++ label lab ++ o_figtype (fst ow))%string, f)] else []) = file_if opts "evals_" lab f).
  { intros f. unfold ow, file_if, label, name_of. destruct opts; reflexivity. }
  unfold eigenvalues. erewrite by_opts by reflexivity. fold ow. destruct ow as [o [l s fs d]]. simpl fst in *. simpl snd in *. simpl in S1, S2. destruct S2 as (-> & -> & ->).
  assert (D0 : dim0 e = Ok k) by (unfold dim0; rewrite He; reflexivity).
  lft D0. cbv zeta. evd. evd.
  assert (PC : forall cur, plot_any "semilogy" (range1 k) e (PP (p_open w ++ [cur]) (p_shown w) (p_files w) d) =
    (Ok tt, PP (p_open w ++ [cur ++ [ILine "semilogy" (curve_pts k (fun i => e.[i, 0%nat]))]]) (p_shown w) (p_files w) d)).
  { intros cur. unfold plot_any. rewrite He. simpl seq. cbn [plot_cols]. lft (column_ok e k 1 0 He ltac:(lia)). evd. rewrite combine_curve. reflexivity. }
  erewrite (mb _ _ _ _ _ (PC _)).
  destruct e_br as [B|].
  - destruct Hbr as (c & HB & Hc & Hb).
    pose proof (column_ok B k c 0 HB ltac:(lia)) as C0. pose proof (column_ok B k c 1 HB ltac:(lia)) as C1.
    destruct (rmin_ok (map (fun i => B.[i, 0%nat]) (seq 0 k)) (map_seq_ne _ _ Hk)) as (a & A1 & A2 & A3).
    destruct (rmax_ok (map (fun i => B.[i, 1%nat]) (seq 0 k)) (map_seq_ne _ _ Hk)) as (b & B1 & B2 & B3).
    erewrite (mb _ _ _ tt) by (lft C0; lft C1; rewrite fill_ev by (rewrite ?len_range1, ?len_map_seq; reflexivity); reflexivity).
    rewrite combine_band. evd.
    erewrite (mb _ _ _ tt) by (lft C0; lft A1; lft C1; lft B1; apply draw_ev).
    rewrite (mb _ _ _ _ _ (save_ev _ _ _ _ _ _ _ _ S1)), show_ev, S3.
    eexists. eexists. split; [reflexivity |]. split; [repeat split |]. cbn [app]. split; [reflexivity |]. split; [reflexivity |]. split; [reflexivity |]. split; [reflexivity |].
    exists a, b. cbv zeta. split; [reflexivity |]. split; [exact (range_ok _ _ _ _ _ A2 A3 B2 B3) |]. intros i Hi. pose proof (Hb i Hi) as Hbi. specialize (IX i Hi).
    assert (I0 : In (B.[i, 0%nat]) (map (fun i => B.[i, 0%nat]) (seq 0 k))) by (apply in_map_iff; exists i; split; [reflexivity | apply in_seq; lia]).
    assert (I1 : In (B.[i, 1%nat]) (map (fun i => B.[i, 1%nat]) (seq 0 k))) by (apply in_map_iff; exists i; split; [reflexivity | apply in_seq; lia]).
    apply A3 in I0. apply B3 in I1.
    assert (A0 : 0 <= a). { apply in_map_iff in A2. destruct A2 as (i0 & <- & Hi0). apply in_seq in Hi0. specialize (Hb i0 ltac:(lia)). lra. }
    unfold in_window. repeat split; lra.
  - assert (EN : entries e <> []).
    { intros E. assert (I0 : In (e.[0%nat, 0%nat]) (entries e)) by (apply (in_entries2 e k 1 _ He); exists 0%nat, 0%nat; auto).
      rewrite E in I0. destruct I0. }
    destruct (rmin_ok _ EN) as (a & A1 & A2 & A3). destruct (rmax_ok _ EN) as (b & B1 & B2 & B3).
    rewrite (mb (mret tt) _ _ tt _ eq_refl). evd.
    erewrite (mb _ _ _ tt) by (lft A1; lft B1; apply draw_ev).
    rewrite (mb _ _ _ _ _ (save_ev _ _ _ _ _ _ _ _ S1)), show_ev, S3.
    eexists. eexists. split; [reflexivity |]. split; [repeat split |]. cbn [app]. split; [reflexivity |]. split; [reflexivity |]. split; [reflexivity |]. split; [reflexivity |].
    exists a, b. cbv zeta. split; [reflexivity |]. split.
    { rewrite (entries_col e k He) in *. exact (range_ok _ _ _ _ _ A2 A3 B2 B3). }
    intros i Hi. specialize (IX i Hi).
    assert (I0 : In (e.[i, 0%nat]) (entries e)) by (apply (in_entries2 e k 1 _ He); exists i, 0%nat; auto).
    pose proof (A3 _ I0). pose proof (B3 _ I0). pose proof (Hpos i Hi) as Hpi.
    assert (A0 : 0 <= a).
    { apply (in_entries2 e k 1 _ He) in A2. destruct A2 as (i0 & j0 & Hi0 & Hj0 & ->). replace j0 with 0%nat by lia. auto. }
    split; auto. unfold in_window. repeat split; lra.
Qed.
Print Assumptions C63_eigenvalues.

(** subspace_errors: errors between 0 and 1, lower <= mean <= upper *)
Theorem C63_subspace_errors : forall (b : nd R) (k c : nat) lab opts w,
  shape b = [k; c] -> (0 < k)%nat -> (3 <= c)%nat ->
  (forall i, (i < k)%nat -> 0 <= b.[i, 0%nat] <= b.[i, 1%nat] /\ b.[i, 1%nat] <= b.[i, 2%nat] <= 1) ->
  can_save opts w ->
  exists f w', subspace_errors b lab opts w = (Ok tt, w') /\ displays w w' [f] (file_if opts "subspace_" lab f) /\
    lines_of f = [curve_pts k (fun i => b.[i, 1%nat])] /\
    bands_of f = [band_pts k (fun i => b.[i, 0%nat]) (fun i => b.[i, 2%nat])] /\
    texts_of f = [("xlabel", "Subspace dimension"); ("ylabel", "Subspace distance"); ("title", name_of lab)]%string /\
    marks_of f = [map INR (seq 1 k)] /\
    exists lo, let win := (0, INR (k + 1), 1/10 * lo, 1) in windows_of f = [win] /\
      (exists i, (i < k)%nat /\ lo = b.[i, 0%nat]) /\ (forall i, (i < k)%nat -> lo <= b.[i, 0%nat]) /\
      forall i j, (i < k)%nat -> (j < 3)%nat -> in_window win (INR (i + 1)) (b.[i, j]).
Proof.
  intros b k c lab opts w Hb Hk Hc Hv Hsave.
  set (ow := in_force opts w).
  assert (S1 : o_savefigs (fst ow) = true -> p_dir (snd ow) = true) by (unfold ow; destruct opts; simpl in *; auto).
  assert (S2 : p_open (snd ow) = p_open w /\ p_shown (snd ow) = p_shown w /\ p_files (snd ow) = p_files w) by (unfold ow; destruct opts; simpl; auto).
  assert (S3 : forall f, (if o_savefigs (fst ow) then [(("figs/" ++ "subspace_" ++ label lab ++ o_figtype (fst ow))%string, f)] else []) = file_if opts "subspace_" lab f).
  { intros f. unfold ow, file_if, label, name_of. destruct opts; reflexivity. }
  unfold subspace_errors. erewrite by_opts by reflexivity. fold ow. destruct ow as [o [l s fs d]]. simpl fst in *. simpl snd in *. simpl in S1, S2. destruct S2 as (-> & -> & ->).
  assert (D0 : dim0 b = Ok k) by (unfold dim0; rewrite Hb; reflexivity).
  lft D0. cbv zeta. evd. evd. lft (column_ok b k c 1 Hb ltac:(lia)). evd. lft (column_ok b k c 0 Hb ltac:(lia)). lft (column_ok b k c 2 Hb ltac:(lia)).
  evd. rewrite combine_curve, combine_band. evd.
  destruct (rmin_ok (map (fun i => b.[i, 0%nat]) (seq 0 k)) (map_seq_ne _ _ Hk)) as (a & A1 & A2 & A3). lft A1. evd.
  rewrite (mb _ _ _ _ _ (save_ev _ _ _ _ _ _ _ _ S1)), show_ev, S3.
  eexists. eexists. split; [reflexivity |]. split; [repeat split |]. cbn [app]. split; [reflexivity |]. split; [reflexivity |]. split; [reflexivity |]. split; [reflexivity |].
  exists a. cbv zeta. split; [reflexivity |]. split.
  { apply in_map_iff in A2. destruct A2 as (i0 & <- & Hi0). apply in_seq in Hi0. exists i0. split; [lia | reflexivity]. }
  split. { intros i Hi. apply A3, in_map_iff. exists i. split; [reflexivity | apply in_seq; lia]. }
  intros i j Hi Hj. pose proof (Hv i Hi) as Hvi.
  assert (IX : 0 <= INR (i + 1) <= INR (k + 1)) by (split; [apply pos_INR | apply le_INR; lia]).
  assert (I0 : a <= b.[i, 0%nat]) by (apply A3, in_map_iff; exists i; split; [reflexivity | apply in_seq; lia]).
  assert (A0 : 0 <= a). { apply in_map_iff in A2. destruct A2 as (i0 & <- & Hi0). apply in_seq in Hi0. specialize (Hv i0 ltac:(lia)). lra. }
  unfold in_window. destruct j as [|[|[|j]]]; [| | |lia]; repeat split; lra.
Qed.
Print Assumptions C63_subspace_errors.

(** C64.  The axes of a figure (its sub-plots), with their contents *)
Fixpoint split_axes (cur : fig) (f : fig) : list fig :=
  match f with
  | [] => match cur with [] => [] | _ => [cur] end
  | IPanel _ :: f => match cur with [] => split_axes [] f | _ => cur :: split_axes [] f end
  | it :: f => split_axes (cur ++ [it]) f
  end.
Definition axes_of (f : fig) : list fig := split_axes [] f.
Definition places_of (f : fig) : list nat := flat_map (fun it => match it with IPanel c => [c] | _ => [] end) f.
Definition ticks_of (f : fig) : list (list R * list string) :=
  flat_map (fun it => match it with IXTicks x (Some l) => [(x, l)] | _ => [] end) f.

Definition digit (j : nat) : string := match j with 0 => "1" | 1 => "2" | 2 => "3" | _ => "4" end%string%nat.

Section C64.
  Variables (W0 : nd R) (m n : nat) (W_br : option (nd R)).
  Hypothesis HW : shape W0 = [m; n].
  Hypothesis HB : match W_br with None => True | Some B => shape B = [m; (2 * n)%nat] end.

  Definition curve_items (j : nat) : fig :=
    ILine "plot" (curve_pts m (fun i => W0.[i, j])) ::
    match W_br with None => [] | Some B => [IBand (band_pts m (fun i => B.[i, (2 * j)%nat]) (fun i => B.[i, (2 * j + 1)%nat]))] end.
  Definition tick_items (lab : option (list string)) : fig :=
    match lab with None => [] | Some l => [IXTicks (range1 m) (Some l); IStyle "margins"; IStyle "subplots_adjust"] end.
  Definition panel_items (code j : nat) (title : string) (lab : option (list string)) : fig :=
    [IPanel code; IStyle "font"] ++ curve_items j ++ [IText "title" title; IStyle "grid"; IStyle "tick_params"] ++ tick_items lab ++
    [IAxis 1 (INR m) (-1) 1].

  Lemma curve_ev : forall j l cur s fs d, (j < n)%nat ->
    curve W0 W_br m j (PP (l ++ [cur]) s fs d) = (Ok tt, PP (l ++ [cur ++ curve_items j]) s fs d).
  Proof.
    intros j l cur s fs d Hj. unfold curve, curve_items. lft (column_ok W0 m n j HW Hj). evd. rewrite combine_curve. destruct W_br as [B|].
    - lft (column_ok B m _ (2 * j) HB ltac:(lia)). lft (column_ok B m _ (2 * j + 1) HB ltac:(lia)).
      rewrite fill_ev by (rewrite ?len_range1, ?len_map_seq; reflexivity). rewrite combine_band, <- app_assoc. reflexivity.
    - reflexivity.
  Qed.
  Lemma tick_ev : forall lab l cur s fs d,
    tick_labels lab m (PP (l ++ [cur]) s fs d) = (Ok tt, PP (l ++ [cur ++ tick_items lab]) s fs d).
  Proof. intros [t|] l cur s fs d; unfold tick_labels, tick_items; [apply draws_ev | rewrite app_nil_r; reflexivity]. Qed.
  Lemma panel_ev : forall code j title lab l cur s fs d, (j < n)%nat ->
    panel W0 W_br m code j title lab (PP (l ++ [cur]) s fs d) = (Ok tt, PP (l ++ [cur ++ panel_items code j title lab]) s fs d).
  Proof.
    intros. unfold panel, panel_items, unit_axis. evd. evd. rewrite (mb _ _ _ _ _ (curve_ev _ _ _ _ _ _ H)). evd.
    rewrite (mb _ _ _ _ _ (tick_ev _ _ _ _ _ _)), draw_ev. rewrite <- !app_assoc. reflexivity.
  Qed.
End C64.

Theorem C64_eigenvectors : forall (W0 : nd R) (m n : nat) (W_br : option (nd R)) in_labels lab opts w,
  shape W0 = [m; n] -> (0 < n)%nat ->
  match W_br with None => True | Some B => shape B = [m; (2 * n)%nat] end ->
  can_save opts w ->
  exists f w', eigenvectors W0 W_br in_labels lab opts w = (Ok tt, w') /\ displays w w' [f] (file_if opts "evecs_" lab f) /\
    List.length (axes_of f) = Nat.min n 4 /\
    places_of f = match n with 1 => [] | 2 => [211; 212] | 3 => [221; 222; 223] | _ => [221; 222; 223; 224] end%nat /\
    (forall j, (j < Nat.min n 4)%nat ->
      let a := nth j (axes_of f) [] in
      lines_of a = [curve_pts m (fun i => W0.[i, j])] /\
      bands_of a = match W_br with None => [] | Some B => [band_pts m (fun i => B.[i, (2 * j)%nat]) (fun i => B.[i, (2 * j + 1)%nat])] end /\
      titles_of a = [if Nat.eqb n 1 then name_of lab else (name_of lab ++ ", evec " ++ digit j)%string] /\
      texts_of a = (if Nat.eqb n 1 then [("ylabel", "Eigenvector 1 components")]%string else []) ++ map (fun t => ("title"%string, t)) (titles_of a) /\
      (* the input names are written under the panels that have none below them *)
      ticks_of a = (if Nat.leb (Nat.min n 4) (j + (if Nat.leb n 2 then 1 else 2))
                    then match in_labels with None => [] | Some t => [(map INR (seq 1 m), t)] end else []) /\
      exists win, windows_of a = [win] /\
        (forall i, (i < m)%nat -> -1 <= W0.[i, j] <= 1 -> in_window win (INR (i + 1)) (W0.[i, j]))) /\
    ticks_of (last (axes_of f) []) = match in_labels with None => [] | Some t => [(map INR (seq 1 m), t)] end.
Proof.
  intros W0 m n W_br in_labels lab opts w HW Hn HB Hsave.
  set (ow := in_force opts w).
  assert (S1 : o_savefigs (fst ow) = true -> p_dir (snd ow) = true) by (unfold ow; destruct opts; simpl in *; auto).
  assert (S2 : p_open (snd ow) = p_open w /\ p_shown (snd ow) = p_shown w /\ p_files (snd ow) = p_files w) by (unfold ow; destruct opts; simpl; auto).
  assert (S3 : forall f, (if o_savefigs (fst ow) then [(("figs/" ++ "evecs_" ++ label lab ++ o_figtype (fst ow))%string, f)] else []) = file_if opts "evecs_" lab f).
  { intros f. unfold ow, file_if, label, name_of. destruct opts; reflexivity. }
  assert (WIN : forall j i, (i < m)%nat -> -1 <= W0.[i, j] <= 1 -> in_window (1, INR m, -1, 1) (INR (i + 1)) (W0.[i, j])).
  { intros j i Hi HX. unfold in_window. split; [|lra]. split; [change 1 with (INR 1) | ]; apply le_INR; lia. }
  unfold eigenvectors. erewrite by_opts by reflexivity. fold ow. destruct ow as [o [l s fs d]]. simpl fst in *. simpl snd in *. simpl in S1, S2. destruct S2 as (-> & -> & ->).
  rewrite HW. rewrite (mb _ _ _ _ _ (ml _ _ _ eq_refl)).
  erewrite (mb _ _ _ tt).
  2: { apply ml. destruct W_br as [B|]; [|reflexivity]. rewrite HB, Nat.eqb_refl. reflexivity. }
  cbv zeta. evd. change (label lab) with (name_of lab).
  destruct n as [|[|[|[|n]]]]; [lia | | | |].
  all: erewrite (mb _ _ _ tt);
    [| unfold unit_axis;
       repeat first [ erewrite mb by (apply (panel_ev _ _ _ _ HW HB); lia)
                    | erewrite mb by (apply (curve_ev _ _ _ _ HW HB); lia)
                    | erewrite mb by (apply tick_ev) | evd ];
       first [ apply (panel_ev _ _ _ _ HW HB); lia | apply draw_ev ] ].
  all: rewrite (mb _ _ _ _ _ (save_ev _ _ _ _ _ _ _ _ S1)), show_ev; change (name_of lab) with (label lab); rewrite S3.
  all: eexists; eexists; split; [reflexivity |]; split; [repeat split |].
  all: unfold panel_items, curve_items, tick_items; destruct W_br as [B|], in_labels as [t|]; cbn [app].
  all: split; [simpl; rewrite ?Nat.min_0_r; reflexivity |]; split; [reflexivity |]; split; [|reflexivity].
  all: intros j Hj; repeat (destruct j as [|j]; [cbv zeta; do 5 (split; [simpl; rewrite ?Nat.min_0_r; reflexivity |]);
         eexists; split; [reflexivity |]; intros; apply WIN; auto |]); simpl in Hj; rewrite ?Nat.min_0_r in Hj; lia.
Qed.
Print Assumptions C64_eigenvectors.

(** what is refused, and in which state *)
Theorem C64_refused : forall (W0 : nd R) (m n : nat) (W_br : option (nd R)) in_labels lab opts w,
  shape W0 = [m; n] ->
  (forall B r c, W_br = Some B -> shape B = [r; c] -> c <> (2 * n)%nat ->
     eigenvectors W0 W_br in_labels lab opts w =
       (Err (Exc "Number bootstrap range columns is wrong. Should be n_br=2n"), snd (in_force opts w))) /\
  (n = 0%nat -> W_br = None ->
     exists f w', eigenvectors W0 W_br in_labels lab opts w = (Err IndexError, w') /\
       p_open w' = p_open w ++ [f] /\ p_shown w' = p_shown w /\ p_files w' = p_files w).
Proof.
  intros W0 m n W_br in_labels lab opts w HW. unfold eigenvectors. split.
  - intros B r c -> HB Hc. erewrite by_opts by reflexivity. rewrite HW, (mb _ _ _ _ _ (ml _ _ _ eq_refl)).
    rewrite (mb_err _ _ _ (Exc "Number bootstrap range columns is wrong. Should be n_br=2n") (snd (in_force opts w))); [reflexivity |].
    rewrite HB. destruct (Nat.eqb_spec c (2 * n)); [contradiction | reflexivity].
  - intros -> ->. erewrite by_opts by reflexivity. rewrite HW, (mb _ _ _ _ _ (ml _ _ _ eq_refl)). cbv zeta.
    rewrite (mb _ _ _ tt _ eq_refl).
    assert (E : p_open (snd (in_force opts w)) = p_open w /\ p_shown (snd (in_force opts w)) = p_shown w /\ p_files (snd (in_force opts w)) = p_files w)
      by (destruct opts; simpl; auto).
    destruct (in_force opts w) as [o [l s fs d]]. simpl in E. destruct E as (-> & -> & ->). simpl snd. evd.
    erewrite mb_err; [eexists; eexists; split; [reflexivity |] |].
    2: { erewrite mb_err; [reflexivity |]. unfold panel. evd. evd. erewrite mb_err; [reflexivity |]. unfold curve.
         erewrite mb_err; [reflexivity |]. unfold mlift, column. rewrite HW. reflexivity. }
    simpl. auto.
Qed.
Print Assumptions C64_refused.

(** C65 *)
Definition cloud (M : nat) (y f : nd R) : list (R * R * R) := map (fun i => (y.[i, 0%nat], y.[i, 1%nat], f.[i, 0%nat])) (seq 0 M).
(** lo and hi are the smallest and the largest entry of the M-by-2 array y *)
Definition all_between (y : nd R) (M : nat) (lo hi : R) : Prop :=
  (exists i j, (i < M)%nat /\ (j < 2)%nat /\ lo = y.[i, j]) /\ (exists i j, (i < M)%nat /\ (j < 2)%nat /\ hi = y.[i, j]) /\
  forall i j, (i < M)%nat -> (j < 2)%nat -> lo <= y.[i, j] <= hi.
Definition seen (win : R * R * R * R) (M : nat) (y : nd R) : Prop :=
  forall i, (i < M)%nat -> in_window win (y.[i, 0%nat]) (y.[i, 1%nat]).

Lemma extremes_ok : forall k v a b,
  In a (map v (seq 0 k)) -> (forall x, In x (map v (seq 0 k)) -> a <= x) ->
  In b (map v (seq 0 k)) -> (forall x, In x (map v (seq 0 k)) -> x <= b) -> extremes k v a b.
Proof.
  intros k v a b A2 A3 B2 B3. apply in_map_iff in A2. apply in_map_iff in B2. destruct A2 as (i & <- & Hi), B2 as (j & <- & Hj).
  apply in_seq in Hi. apply in_seq in Hj. split; [exists i; split; [lia | reflexivity] |]. split; [exists j; split; [lia | reflexivity] |].
  intros l Hl. split; [apply A3 | apply B3]; apply in_map_iff; exists l; (split; [reflexivity | apply in_seq; lia]).
Qed.
Lemma rmm : forall l1 l2, l1 <> [] -> l2 <> [] -> exists a1 a2 a, rmin_list l1 = Ok a1 /\ rmin_list l2 = Ok a2 /\ rmin_list [a1; a2] = Ok a /\
  (In a l1 \/ In a l2) /\ (forall x, In x l1 \/ In x l2 -> a <= x).
Proof.
  intros l1 l2 H1 H2. destruct (rmin_ok l1 H1) as (a1 & E1 & I1 & L1). destruct (rmin_ok l2 H2) as (a2 & E2 & I2 & L2).
  exists a1, a2, (Rmin a1 a2). split; [exact E1 |]. split; [exact E2 |]. split; [reflexivity |]. split.
  - unfold Rmin. destruct (Rle_dec a1 a2); auto.
  - intros x [H|H]; [apply L1 in H; pose proof (Rmin_l a1 a2) | apply L2 in H; pose proof (Rmin_r a1 a2)]; lra.
Qed.
Lemma rmx : forall l1 l2, l1 <> [] -> l2 <> [] -> exists a1 a2 a, rmax_list l1 = Ok a1 /\ rmax_list l2 = Ok a2 /\ rmax_list [a1; a2] = Ok a /\
  (In a l1 \/ In a l2) /\ (forall x, In x l1 \/ In x l2 -> x <= a).
Proof.
  intros l1 l2 H1 H2. destruct (rmax_ok l1 H1) as (a1 & E1 & I1 & L1). destruct (rmax_ok l2 H2) as (a2 & E2 & I2 & L2).
  exists a1, a2, (Rmax a1 a2). split; [exact E1 |]. split; [exact E2 |]. split; [reflexivity |]. split.
  - unfold Rmax. destruct (Rle_dec a1 a2); auto.
  - intros x [H|H]; [apply L1 in H; pose proof (Rmax_l a1 a2) | apply L2 in H; pose proof (Rmax_r a1 a2)]; lra.
Qed.

(** the bivariate plot shows all its points exactly when their coordinates do
    not all have the same sign: the window is 1.1 times the range *)
Theorem C65_summary_partial : forall (y f : nd R) (M n : nat) lab opts w,
  shape y = [M; n] -> shape f = [M; 1%nat] -> (0 < M)%nat -> can_save opts w ->
  (n = 1%nat ->
    exists g w', sufficient_summary y f lab opts w = (Ok tt, w') /\ displays w w' [g] (file_if opts "ssp1_" lab g) /\
      lines_of g = [map (fun i => (y.[i, 0%nat], f.[i, 0%nat])) (seq 0 M)] /\
      texts_of g = [("xlabel", "Active variable"); ("ylabel", name_of lab)]%string) /\
  (n = 2%nat ->
    exists g h w', sufficient_summary y f lab opts w = (Ok tt, w') /\
      displays w w' [g; h] (file_if opts "ssp1_" lab g ++ file_if opts "ssp2_" lab h) /\
      lines_of g = [map (fun i => (y.[i, 0%nat], f.[i, 0%nat])) (seq 0 M)] /\
      texts_of g = [("xlabel", "Active variable"); ("ylabel", name_of lab)]%string /\
      clouds_of h = [cloud M y f] /\
      texts_of h = [("xlabel", "Active variable 1"); ("ylabel", "Active variable 2"); ("title", name_of lab)]%string /\
      (exists c d, colours_of h = [(c, d)] /\ extremes M (fun i => f.[i, 0%nat]) c d) /\
      exists lo hi, let win := (11/10 * lo, 11/10 * hi, 11/10 * lo, 11/10 * hi) in windows_of h = [win] /\
        all_between y M lo hi /\
        (seen win M y <->
         (exists i j, (i < M)%nat /\ (j < 2)%nat /\ y.[i, j] <= 0) /\ (exists i j, (i < M)%nat /\ (j < 2)%nat /\ 0 <= y.[i, j]))) /\
  (n <> 1%nat -> n <> 2%nat ->
    sufficient_summary y f lab opts w =
      (Err (Exc "Sufficient summary plots cannot be made in more than 2 dimensions."), snd (in_force opts w))).
Proof.
  intros y f M n lab opts w Hy Hf HM Hsave.
  set (ow := in_force opts w).
  assert (S1 : o_savefigs (fst ow) = true -> p_dir (snd ow) = true) by (unfold ow; destruct opts; simpl in *; auto).
  assert (S2 : p_open (snd ow) = p_open w /\ p_shown (snd ow) = p_shown w /\ p_files (snd ow) = p_files w) by (unfold ow; destruct opts; simpl; auto).
  assert (S3 : forall st f, (if o_savefigs (fst ow) then [(("figs/" ++ st ++ label lab ++ o_figtype (fst ow))%string, f)] else []) = file_if opts st lab f).
  { intros st g. unfold ow, file_if, label, name_of. destruct opts; reflexivity. }
  assert (D1 : dim1 y = Ok n) by (unfold dim1; rewrite Hy; reflexivity).
  assert (RF : responses f = Ok (map (fun i => f.[i, 0%nat]) (seq 0 M))).
  { unfold responses. rewrite Hf. apply (column_ok f M 1); auto. }
  unfold sufficient_summary. erewrite by_opts by reflexivity. fold ow. destruct ow as [o [l s fs d]]. simpl fst in *. simpl snd in *. simpl in S1, S2. destruct S2 as (-> & -> & ->).
  lft D1. split; [|split].
  - intros ->. rewrite (mb _ _ _ tt _ eq_refl). cbv zeta. evd. evd. lft (column_ok y M 1 0 Hy ltac:(lia)). lft RF. evd. rewrite combine_map. evd.
    rewrite (mb _ _ _ _ _ (save_ev _ _ _ _ _ _ _ _ S1)), S3. rewrite (mb _ _ _ tt _ eq_refl), show_ev.
    eexists. eexists. split; [reflexivity |]. split; [repeat split |]. split; reflexivity.
  - intros ->. rewrite (mb _ _ _ tt _ eq_refl). cbv zeta. evd. evd. lft (column_ok y M 2 0 Hy ltac:(lia)). lft RF. evd. rewrite combine_map. evd.
    rewrite (mb _ _ _ _ _ (save_ev _ _ _ _ _ _ _ _ S1)), S3. cbn [Nat.eqb].
    destruct (rmin_ok (map (fun i => f.[i, 0%nat]) (seq 0 M)) (map_seq_ne _ _ HM)) as (v & V1 & V2 & V3).
    destruct (rmax_ok (map (fun i => f.[i, 0%nat]) (seq 0 M)) (map_seq_ne _ _ HM)) as (v' & V1' & V2' & V3').
    destruct (rmm _ _ (map_seq_ne (fun i => y.[i, 0%nat]) M HM) (map_seq_ne (fun i => y.[i, 1%nat]) M HM)) as (a1 & a2 & a & A1 & A2 & A3 & AI & AL).
    destruct (rmx _ _ (map_seq_ne (fun i => y.[i, 0%nat]) M HM) (map_seq_ne (fun i => y.[i, 1%nat]) M HM)) as (b1 & b2 & b & B1 & B2 & B3 & BI & BL).
    erewrite (mb _ _ _ tt).
    2: { evd. evd. lft (column_ok y M 2 1 Hy ltac:(lia)). lft V1. lft V1'. evd. evd. lft A1. lft A2. lft A3. lft B1. lft B2. lft B3.
         evd. evd. apply save_ev. exact S1. }
    rewrite show_ev, S3, combine_map, combine_map, <- !app_assoc.
    eexists. eexists. eexists. split; [reflexivity |]. split; [repeat split |]. cbn [app]. split; [reflexivity |]. split; [reflexivity |]. split; [reflexivity |]. split; [reflexivity |].
    split. { exists v, v'. split; [reflexivity | exact (extremes_ok _ _ _ _ V2 V3 V2' V3')]. }
    exists a, b. cbv zeta. split; [reflexivity |].
    assert (IN : forall x, In x (map (fun i => y.[i, 0%nat]) (seq 0 M)) \/ In x (map (fun i => y.[i, 1%nat]) (seq 0 M)) <->
                 exists i j, (i < M)%nat /\ (j < 2)%nat /\ x = y.[i, j]).
    { intros x. rewrite !in_map_iff. split.
      - intros [(i & <- & Hi)|(i & <- & Hi)]; apply in_seq in Hi; [exists i, 0%nat | exists i, 1%nat]; repeat split; auto; lia.
      - intros (i & j & Hi & Hj & ->). destruct j as [|[|j]]; [left | right | lia]; exists i; (split; [reflexivity | apply in_seq; lia]). }
    apply IN in AI. apply IN in BI. destruct AI as (ia & ja & Ha1 & Ha2 & Ea), BI as (ib & jb & Hb1 & Hb2 & Eb).
    assert (AL' : forall i j, (i < M)%nat -> (j < 2)%nat -> a <= y.[i, j] <= b).
    { intros i j Hi Hj. split; [apply AL | apply BL]; apply IN; exists i, j; auto. }
    split. { split; [exists ia, ja; auto |]. split; [exists ib, jb; auto | exact AL']. }
    unfold seen, in_window. split.
    + intros H. assert (H' : forall i j, (i < M)%nat -> (j < 2)%nat -> 11/10 * a <= y.[i, j] <= 11/10 * b).
      { intros i j Hi Hj. specialize (H i Hi). destruct j as [|[|j]]; [| |lia]; lra. }
      split; [exists ia, ja | exists ib, jb]; repeat split; auto.
      * specialize (H' ia ja Ha1 Ha2). lra.
      * specialize (H' ib jb Hb1 Hb2). lra.
    + intros [(i1 & j1 & Hi1 & Hj1 & N1) (i2 & j2 & Hi2 & Hj2 & N2)] i Hi.
      pose proof (AL' i 0%nat Hi ltac:(lia)). pose proof (AL' i 1%nat Hi ltac:(lia)).
      pose proof (AL' _ _ Hi1 Hj1). pose proof (AL' _ _ Hi2 Hj2). lra.
  - intros N1 N2. rewrite (mb_err _ _ _ (Exc "Sufficient summary plots cannot be made in more than 2 dimensions.") (PP (p_open w) (p_shown w) (p_files w) d)); [reflexivity |].
    destruct (Nat.eqb_spec n 1), (Nat.eqb_spec n 2); try contradiction. reflexivity.
Qed.
Print Assumptions C65_summary_partial.

(** all scattered points lie in the window of their figure *)
Definition shows_points (g : fig) : Prop :=
  forall win c p, In win (windows_of g) -> In c (clouds_of g) -> In p c -> in_window win (fst (fst p)) (snd (fst p)).
Theorem C65_refuted : ~ (forall (y f : nd R) (M : nat) lab opts w, shape y = [M; 2%nat] -> shape f = [M; 1%nat] -> (0 < M)%nat ->
  can_save opts w -> forall w', sufficient_summary y f lab opts w = (Ok tt, w') -> p_shown w = [] -> p_open w = [] ->
  forall g, In g (p_shown w') -> shows_points g).
Proof.
  intros H.
  set (y := mk2 2 2 (fun i _ => INR (i + 1))). set (f := mk2 2 1 (fun i _ => INR i)).
  set (w := PP [] [] [] false).
  destruct (C65_summary_partial y f 2 2 None None w eq_refl eq_refl ltac:(lia) I) as (_ & H2 & _).
  destruct (H2 eq_refl) as (g & h & w' & E & (D1 & D2 & D3) & _ & _ & HC & _ & _ & lo & hi & HW & _ & HS).
  set (win := (11/10 * lo, 11/10 * hi, 11/10 * lo, 11/10 * hi)) in *.
  specialize (H y f 2%nat None None w eq_refl eq_refl ltac:(lia) I w' E eq_refl eq_refl h).
  rewrite D2 in H. specialize (H (or_intror (or_introl eq_refl))).
  assert (S : seen win 2 y).
  { intros i Hi. apply (H win (cloud 2 y f) (y.[i, 0%nat], y.[i, 1%nat], f.[i, 0%nat])).
    - rewrite HW. left. reflexivity.
    - rewrite HC. left. reflexivity.
    - unfold cloud. apply in_map_iff. exists i. split; [reflexivity | apply in_seq; lia]. }
  apply HS in S. destruct S as [(i & j & Hi & Hj & N) _]. unfold y in N. rewrite at_mk2 in N by lia.
  assert (0 < INR (i + 1)) by (apply lt_0_INR; lia). lra.
Qed.
Print Assumptions C65_refuted.

(** C66 *)
Section C66.
  Variables (convex_hull delaunay : nd R -> res unit).
  Let zplot := zonotope_2d_plot convex_hull delaunay.

  (** the points [y] with their colours, as given *)
  Definition same_len (y f : option (nd R)) (K : nat) : Prop :=
    match y, f with
    | Some y, Some f => shape y = [K; 2%nat] /\ shape f = [K; 1%nat] /\ (0 < K)%nat
    | None, None => True
    | _, _ => False
    end.

  Theorem C66_zonotope_partial : forall (V : nd R) (M : nat) (design : option (nd R)) (N : nat) (y f : option (nd R)) (K : nat) lab opts w P,
    shape V = [M; 2%nat] -> (0 < M)%nat ->
    match design with None => P = None
    | Some D => shape D = [N; 2%nat] /\ exists p, vstack D V = Ok p /\ delaunay p = Ok tt /\ P = Some p end ->
    same_len y f K -> convex_hull V = Ok tt -> can_save opts w ->
    exists g w', zplot V design y f lab opts w = (Ok tt, w') /\
      p_shown w' = p_shown w ++ p_open w ++ [g] /\
      p_files w' = p_files w ++ file_if opts "zonotope_2d_" lab [] /\
      hulls_of g = [V] /\
      flat_map (fun it => match it with ITri p => [p] | _ => [] end) g = match P with None => [] | Some p => [p] end /\
      clouds_of g = match y, f with Some y, Some f => [cloud K y f] | _, _ => [] end /\
      texts_of g = match y with None => [] | Some _ => [("title", name_of lab)]%string end ++
                   [("xlabel", "Active variable 1"); ("ylabel", "Active variable 2")]%string /\
      match y, f with
      | Some _, Some f => exists c d, colours_of g = [(c, d)] /\ extremes K (fun i => f.[i, 0%nat]) c d
      | _, _ => colours_of g = []
      end /\
      exists lo hi, let win := (11/10 * lo, 11/10 * hi, 11/10 * lo, 11/10 * hi) in windows_of g = [win] /\
        all_between V M lo hi /\
        (seen win M V <->
         (exists i j, (i < M)%nat /\ (j < 2)%nat /\ V.[i, j] <= 0) /\ (exists i j, (i < M)%nat /\ (j < 2)%nat /\ 0 <= V.[i, j])).
  Proof.
    intros V M design N y f K lab opts w P HV HM HD HY HC Hsave.
    set (ow := in_force opts w).
    assert (S1 : o_savefigs (fst ow) = true -> p_dir (snd ow) = true) by (unfold ow; destruct opts; simpl in *; auto).
    assert (S2 : p_open (snd ow) = p_open w /\ p_shown (snd ow) = p_shown w /\ p_files (snd ow) = p_files w) by (unfold ow; destruct opts; simpl; auto).
    assert (S3 : forall st f, (if o_savefigs (fst ow) then [(("figs/" ++ st ++ label lab ++ o_figtype (fst ow))%string, f)] else []) = file_if opts st lab f).
    { intros st g. unfold ow, file_if, label, name_of. destruct opts; reflexivity. }
    assert (D1 : dim1 V = Ok 2%nat) by (unfold dim1; rewrite HV; reflexivity).
    unfold zplot, zonotope_2d_plot. erewrite by_opts by reflexivity. fold ow. destruct ow as [o [l s fs d]]. simpl fst in *. simpl snd in *. simpl in S1, S2. destruct S2 as (-> & -> & ->).
    cbv zeta. lft D1. rewrite (mb _ _ _ tt _ eq_refl).
    erewrite (mb _ _ _ tt). 2: { apply ml. destruct design as [D|]; [|reflexivity]. destruct HD as [HD _]. unfold dim1. rewrite HD. reflexivity. }
    erewrite (mb _ _ _ tt). 2: { apply ml. destruct y as [y|]; [|reflexivity]. destruct f as [f|]; [|contradiction]. destruct HY as [HY _]. unfold dim1. rewrite HY. reflexivity. }
    erewrite (mb _ _ _ tt).
    2: { apply ml. destruct y as [y|], f as [f|]; try contradiction; [|reflexivity]. destruct HY as (HY & HF & _). unfold dim0. rewrite HY, HF. simpl. rewrite Nat.eqb_refl. reflexivity. }
    assert (EN : entries V <> []).
    { intros E. assert (I0 : In (V.[0%nat, 0%nat]) (entries V)) by (apply (in_entries2 V M 2 _ HV); exists 0%nat, 0%nat; auto).
      rewrite E in I0. destruct I0. }
    destruct (rmin_ok _ EN) as (a & A1 & A2 & A3). destruct (rmax_ok _ EN) as (b & B1 & B2 & B3).
    lft A1. lft B1. lft HC.
    erewrite (mb _ _ _ P). 2: { apply ml. destruct design as [D|]; [|rewrite HD; reflexivity]. destruct HD as (_ & p & Ep & Ed & ->). rewrite Ep. simpl. rewrite Ed. reflexivity. }
    evd. evd. evd. evd.
    set (tri := match P with None => [] | Some p => [ITri p; IStyle "color"] end).
    assert (ET : forall cur, (match P with None => mret tt | Some p => draws [ITri p; IStyle "color"] end) (PP (p_open w ++ [cur]) (p_shown w) (p_files w) d) =
      (Ok tt, PP (p_open w ++ [cur ++ tri]) (p_shown w) (p_files w) d)).
    { intros cur. unfold tri. destruct P as [p|]; [apply draws_ev | rewrite app_nil_r; reflexivity]. }
    erewrite (mb _ _ _ _ _ (ET _)).
    assert (EY : exists sc, (forall cur,
        (match y, f with
         | Some y, Some f =>
             dom y1 <- mlift (column y 0); dom y2 <- mlift (column y 1); dom f1 <- mlift (responses f);
             dom vmin <- mlift (rmin_list f1); dom vmax <- mlift (rmax_list f1);
             draws [IScatter (combine (combine y1 y2) f1) vmin vmax; IStyle "aspect"; IText "title" (label lab); IStyle "colorbar"]
         | _, _ => mret tt end) (PP (p_open w ++ [cur]) (p_shown w) (p_files w) d) =
        (Ok tt, PP (p_open w ++ [cur ++ sc]) (p_shown w) (p_files w) d)) /\
        hulls_of sc = [] /\ flat_map (fun it => match it with ITri p => [p] | _ => [] end) sc = [] /\ windows_of sc = [] /\
        clouds_of sc = match y, f with Some y, Some f => [cloud K y f] | _, _ => [] end /\
        texts_of sc = match y with None => [] | Some _ => [("title", name_of lab)]%string end /\
        match y, f with
        | Some _, Some f => exists c d, colours_of sc = [(c, d)] /\ extremes K (fun i => f.[i, 0%nat]) c d
        | _, _ => colours_of sc = []
        end).
    { destruct y as [y|], f as [f|]; try contradiction.
      2: { exists []. split; [intros cur; rewrite app_nil_r; reflexivity |]. repeat split. }
      destruct HY as (HY & HF & HK).
      destruct (rmin_ok (map (fun i => f.[i, 0%nat]) (seq 0 K)) (map_seq_ne _ _ HK)) as (v & V1 & V2 & V3).
      destruct (rmax_ok (map (fun i => f.[i, 0%nat]) (seq 0 K)) (map_seq_ne _ _ HK)) as (v' & V1' & V2' & V3').
      assert (RF : responses f = Ok (map (fun i => f.[i, 0%nat]) (seq 0 K))) by (unfold responses; rewrite HF; apply (column_ok f K 1); auto).
      eexists. split.
      { intros cur. lft (column_ok y K 2 0 HY ltac:(lia)). lft (column_ok y K 2 1 HY ltac:(lia)). lft RF. lft V1. lft V1'. rewrite combine_map, combine_map. apply draws_ev. }
      do 5 (split; [reflexivity |]). exists v, v'. split; [reflexivity | exact (extremes_ok _ _ _ _ V2 V3 V2' V3')]. }
    destruct EY as (sc & EY & SH & ST & SW & SC & SX & SK). erewrite (mb _ _ _ _ _ (EY _)). evd.
    rewrite (mb _ _ _ _ _ (show_ev _ _ _ _)).
    assert (SV : forall st fl, save_if o "zonotope_2d_" (label lab) (PP [] st fl d) =
      (Ok tt, PP (if o_savefigs o then [[]] else []) st (fl ++ file_if opts "zonotope_2d_" lab []) d)).
    { intros st fl. rewrite <- S3. unfold save_if. destruct (o_savefigs o); [|rewrite app_nil_r; reflexivity]. unfold savefig. simpl p_dir. rewrite S1 by reflexivity. reflexivity. }
    rewrite SV. eexists. eexists. split; [reflexivity |]. split; [reflexivity |]. split; [reflexivity |].
    unfold hulls_of, clouds_of, windows_of, texts_of, colours_of in *. rewrite !flat_map_app. rewrite SH, ST, SW, SC, SX.
    assert (TK : flat_map (fun it => match it with IScatter _ a b => [(a, b)] | _ => [] end) tri = []) by (unfold tri; destruct P; reflexivity).
    assert (TX : flat_map (fun it => match it with IText p t => [(p, t)] | _ => [] end) tri = []) by (unfold tri; destruct P; reflexivity).
    assert (TH : flat_map (fun it => match it with IHull p => [p] | _ => [] end) tri = []) by (unfold tri; destruct P; reflexivity).
    assert (TC : flat_map (fun it => match it with IScatter p _ _ => [p] | _ => [] end) tri = []) by (unfold tri; destruct P; reflexivity).
    assert (TW : flat_map (fun it => match it with IAxis a b c d => [(a, b, c, d)] | _ => [] end) tri = []) by (unfold tri; destruct P; reflexivity).
    assert (TT : flat_map (fun it => match it with ITri p => [p] | _ => [] end) tri = match P with None => [] | Some p => [p] end) by (unfold tri; destruct P; reflexivity).
    rewrite TH, TC, TW, TT, TX, TK. simpl.
    split; [reflexivity |]. split; [rewrite !app_nil_r; reflexivity |]. split; [rewrite !app_nil_r; reflexivity |]. split; [reflexivity |].
    split. { rewrite ?app_nil_r. exact SK. }
    exists a, b. split; [reflexivity |].
    pose proof (in_entries2 V M 2) as IN.
    apply (IN _ HV) in A2. apply (IN _ HV) in B2. destruct A2 as (ia & ja & Ha1 & Ha2 & Ea), B2 as (ib & jb & Hb1 & Hb2 & Eb).
    assert (AL' : forall i j, (i < M)%nat -> (j < 2)%nat -> a <= V.[i, j] <= b).
    { intros i j Hi Hj. split; [apply A3 | apply B3]; apply (IN _ HV); exists i, j; auto. }
    split. { split; [exists ia, ja; auto |]. split; [exists ib, jb; auto | exact AL']. }
    unfold seen, in_window. split.
    + intros H. assert (H' : forall i j, (i < M)%nat -> (j < 2)%nat -> 11/10 * a <= V.[i, j] <= 11/10 * b).
      { intros i j Hi Hj. specialize (H i Hi). destruct j as [|[|j]]; [| |lia]; lra. }
      split; [exists ia, ja | exists ib, jb]; repeat split; auto.
      * specialize (H' ia ja Ha1 Ha2). lra.
      * specialize (H' ib jb Hb1 Hb2). lra.
    + intros [(i1 & j1 & Hi1 & Hj1 & N1) (i2 & j2 & Hi2 & Hj2 & N2)] i Hi.
      pose proof (AL' i 0%nat Hi ltac:(lia)). pose proof (AL' i 1%nat Hi ltac:(lia)).
      pose proof (AL' _ _ Hi1 Hj1). pose proof (AL' _ _ Hi2 Hj2). lra.
  Qed.

  (** wrong arguments are refused before anything is computed or drawn *)
  Theorem C66_refused : forall (V : nd R) (M c : nat) (design y f : option (nd R)) lab opts w,
    shape V = [M; c] ->
    let refused msg := zplot V design y f lab opts w = (Err (Exc msg), snd (in_force opts w)) in
    let flat (o : option (nd R)) := match o with None => True | Some d => exists N, shape d = [N; 2%nat] end in
    (c <> 2%nat -> refused "Zonotope vertices should be 2d."%string) /\
    (c = 2%nat -> (exists D N k, design = Some D /\ shape D = [N; k] /\ k <> 2%nat) -> refused "Zonotope design should be 2d."%string) /\
    (c = 2%nat -> flat design -> (exists D N k, y = Some D /\ shape D = [N; k] /\ k <> 2%nat) -> refused "Zonotope design should be 2d."%string) /\
    (c = 2%nat -> flat design -> flat y -> (y = None <-> f <> None) -> refused "You need both y and f to plot."%string) /\
    (c = 2%nat -> flat design -> (exists Y F a b k, y = Some Y /\ f = Some F /\ shape Y = [a; 2%nat] /\ shape F = [b; k] /\ a <> b) ->
       refused "Lengths of y and f are not the same."%string).
  Proof.
    intros V M c design y f lab opts w HV refused flat. subst refused. cbv beta.
    assert (D1 : dim1 V = Ok c) by (unfold dim1; rewrite HV; reflexivity).
    pose proof (by_opts (zplot V design y f lab opts) _ opts w eq_refl) as E0. cbv beta zeta in E0. rewrite (mb _ _ _ _ _ (ml _ _ _ D1)) in E0. rewrite !E0. clear E0.
    set (w0 := snd (in_force opts w)).
    assert (GD : flat design -> (match design with None => Ok tt | Some d => do c <- dim1 d; guard (Nat.eqb c 2) (Exc "Zonotope design should be 2d.") end) = Ok tt).
    { destruct design as [D|]; [|reflexivity]. intros (N & HD). unfold dim1. rewrite HD. reflexivity. }
    assert (GY : flat y -> (match y with None => Ok tt | Some d => do c <- dim1 d; guard (Nat.eqb c 2) (Exc "Zonotope design should be 2d.") end) = Ok tt).
    { destruct y as [D|]; [|reflexivity]. intros (N & HD). unfold dim1. rewrite HD. reflexivity. }
    split; [|split; [|split; [|split]]].
    - intros Hc. rewrite (mb_err _ _ _ (Exc "Zonotope vertices should be 2d.") w0); [reflexivity |]. destruct (Nat.eqb_spec c 2); [contradiction | reflexivity].
    - intros -> (D & N & k & -> & HD & Hk). rewrite (mb _ _ _ tt _ eq_refl). apply mb_err. unfold dim1. rewrite HD. simpl.
      destruct k as [|[|[|k]]]; try reflexivity; contradiction.
    - intros -> FD (D & N & k & -> & HD & Hk). rewrite (mb _ _ _ tt _ eq_refl). lft (GD FD). apply mb_err. unfold dim1. rewrite HD. simpl.
      destruct k as [|[|[|k]]]; try reflexivity; contradiction.
    - intros -> FD FY HX. rewrite (mb _ _ _ tt _ eq_refl). lft (GD FD). lft (GY FY). apply mb_err.
      destruct y as [y|], f as [f|]; try reflexivity.
      + assert (E : Some y = None) by (apply HX; discriminate). discriminate.
      + destruct (proj1 HX eq_refl eq_refl).
    - intros -> FD (Y & F & a & b & k & -> & -> & HY & HF & Hab). rewrite (mb _ _ _ tt _ eq_refl). lft (GD FD). lft (GY (ex_intro _ a HY)). apply mb_err.
      unfold dim0. rewrite HY, HF. simpl. destruct (Nat.eqb_spec a b); [contradiction | reflexivity].
  Qed.
End C66.
Print Assumptions C66_zonotope_partial.
Print Assumptions C66_refused.

(** the file that zonotope_2d_plot writes does not hold the figure it shows *)
Theorem C66_refuted : ~ (forall (convex_hull delaunay : nd R -> res unit) (V : nd R) (M : nat) lab w w',
  shape V = [M; 2%nat] -> (0 < M)%nat -> zonotope_2d_plot convex_hull delaunay V None None None lab None w = (Ok tt, w') ->
  p_shown w = [] -> p_open w = [] -> p_files w = [] ->
  exists g, p_shown w' = [g] /\ p_files w' = [(("figs/zonotope_2d_" ++ name_of lab ++ ".eps")%string, g)]).
Proof.
  intros H. set (V := mk2 4 2 (fun i j => if Nat.eqb j 0 then (if Nat.ltb i 2 then 1 else -1) else (if Nat.even i then 1 else -1))).
  destruct (C66_zonotope_partial (fun _ => Ok tt) (fun _ => Ok tt) V 4 None 0 None None 0 None None (PP [] [] [] false) None eq_refl ltac:(lia) eq_refl I eq_refl I)
    as (g & w' & E & S & F & HG & _).
  destruct (H _ _ V 4%nat None _ w' eq_refl ltac:(lia) E eq_refl eq_refl eq_refl) as (g' & S' & F').
  rewrite S' in S. simpl in S. inversion S. subst g'. rewrite F' in F. simpl in F. inversion F. subst g. simpl in HG. discriminate.
Qed.
Print Assumptions C66_refuted.

(** Concrete cases. *)
Definition no_plot : pyplot := PP [] [] [] false.
Definition ev2 : nd R := mk2 2 1 (fun i _ => if Nat.eqb i 0 then 4 else 1).
Definition ev2_br : nd R := mk2 2 2 (fun i j => ev2.[i, 0%nat] + INR j / 2).
Example C63_case : exists f w', eigenvalues ev2 (Some ev2_br) None None no_plot = (Ok tt, w') /\
  p_shown w' = [f] /\ p_files w' = [("figs/evals_Output.eps"%string, f)] /\ lines_of f = [[(1, 4); (2, 1)]].
Proof.
  destruct (C63_eigenvalues ev2 2 (Some ev2_br) None None no_plot eq_refl) as (f & w' & E & (D1 & D2 & D3) & L & _).
  - lia.
  - intros i Hi. destruct i as [|[|i]]; [| |lia]; unfold ev2; rewrite at_mk2 by lia; simpl; lra.
  - exists 2%nat. split; [reflexivity |]. split; [lia |]. intros i Hi.
    destruct i as [|[|i]]; [| |lia]; unfold ev2_br; rewrite !at_mk2 by lia; unfold ev2; rewrite !at_mk2 by lia; simpl; lra.
  - exact I.
  - exists f, w'. split; [exact E |]. split; [exact D2 |]. split; [exact D3 |]. rewrite L. unfold curve_pts. simpl. repeat f_equal; lra.
Qed.
Example C63_case2 : exists f w', subspace_errors (mk2 1 3 (fun _ j => INR (j + 1) / 4)) (Some "q"%string) (Some (PO false ".png")) no_plot = (Ok tt, w') /\
  p_shown w' = [f] /\ p_files w' = [] /\ lines_of f = [[(1, 1 / 2)]].
Proof.
  destruct (C63_subspace_errors (mk2 1 3 (fun _ j => INR (j + 1) / 4)) 1 3 (Some "q"%string) (Some (PO false ".png")) no_plot eq_refl) as (f & w' & E & (D1 & D2 & D3) & L & _).
  - lia.
  - lia.
  - intros i Hi. unfold at_, mk2. simpl. lra.
  - intros H. discriminate.
  - exists f, w'. split; [exact E |]. split; [exact D2 |]. split; [exact D3 |]. rewrite L. unfold curve_pts. simpl. replace ((1 + 1) / 4) with (1 / 2) by lra. reflexivity.
Qed.
Definition id2 : nd R := mk2 2 2 (fun i j => if Nat.eqb i j then 1 else 0).
Example C64_case : exists f w', eigenvectors id2 None (Some ["a"; "b"]%string) None (Some (PO false ".eps")) no_plot = (Ok tt, w') /\
  p_shown w' = [f] /\ List.length (axes_of f) = 2%nat /\ lines_of (nth 1 (axes_of f) []) = [[(1, 0); (2, 1)]] /\
  titles_of (nth 1 (axes_of f) []) = ["Output, evec 2"%string].
Proof.
  destruct (C64_eigenvectors id2 2 2 None (Some ["a"; "b"]%string) None (Some (PO false ".eps")) no_plot eq_refl ltac:(lia) I) as (f & w' & E & (D1 & D2 & D3) & L & _ & P & _).
  - intros H. discriminate.
  - exists f, w'. split; [exact E |]. split; [exact D2 |]. split; [exact L |].
    destruct (P 1%nat ltac:(simpl; lia)) as (P1 & _ & P2 & _). rewrite P1, P2. split; [|reflexivity].
    unfold curve_pts. simpl. repeat f_equal; lra.
Qed.
Example C65_case : exists g h w', sufficient_summary (mk2 2 2 (fun i j => INR i - INR j / 2)) (mk2 2 1 (fun i _ => INR i)) None None no_plot = (Ok tt, w') /\
  p_shown w' = [g; h] /\ shows_points h.
Proof.
  set (y := mk2 2 2 (fun i j => INR i - INR j / 2)). set (f := mk2 2 1 (fun i _ => INR i)).
  destruct (C65_summary_partial y f 2 2 None None no_plot eq_refl eq_refl ltac:(lia) I) as (_ & H & _).
  destruct (H eq_refl) as (g & h & w' & E & (D1 & D2 & D3) & _ & _ & HC & _ & _ & lo & hi & HW & _ & HS).
  set (win := (11/10 * lo, 11/10 * hi, 11/10 * lo, 11/10 * hi)) in *.
  exists g, h, w'. split; [exact E |]. split; [exact D2 |].
  assert (S : seen win 2 y).
  { apply HS. split; [exists 0%nat, 1%nat | exists 1%nat, 0%nat]; (split; [lia |]; split; [lia |]); unfold y; rewrite at_mk2 by lia; simpl; lra. }
  intros win' c p Hw Hc Hp. rewrite HW in Hw. rewrite HC in Hc. destruct Hw as [<- |[]]. destruct Hc as [<- |[]].
  unfold cloud in Hp. apply in_map_iff in Hp. destruct Hp as (i & <- & Hi). apply in_seq in Hi. apply S. lia.
Qed.
Example C66_case : exists g w', zonotope_2d_plot (fun _ => Ok tt) (fun _ => Ok tt) id2 (Some id2) (Some id2) (Some (mk2 2 1 (fun i _ => INR i))) None None no_plot = (Ok tt, w') /\
  p_shown w' = [g] /\ hulls_of g = [id2] /\ clouds_of g = [[(1, 0, 0); (0, 1, 1)]].
Proof.
  destruct (C66_zonotope_partial (fun _ => Ok tt) (fun _ => Ok tt) id2 2 (Some id2) 2 (Some id2) (Some (mk2 2 1 (fun i _ => INR i))) 2 None None no_plot _ eq_refl ltac:(lia)
    (conj eq_refl (ex_intro _ _ (conj eq_refl (conj eq_refl eq_refl)))) (conj eq_refl (conj eq_refl (Nat.lt_0_succ 1))) eq_refl I)
    as (g & w' & E & D & _ & HH & _ & HC & _).
  exists g, w'. split; [exact E |]. split; [exact D |]. split; [exact HH |]. rewrite HC. reflexivity.
Qed.
