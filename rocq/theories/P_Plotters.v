(** Evaluating the plotting machine. *)
From Coq Require Import String Reals Lra Lia List Arith ZArith Bool.
From Verif Require Import Prelude Py NumArr M_Plotters.
Import ListNotations.
Open Scope R_scope.

Lemma mb : forall {A B} (m : M pyplot A) (k : A -> M pyplot B) w a w', m w = (Ok a, w') -> mbind m k w = k a w'.
Proof. intros A B m k w a w' H. unfold mbind. rewrite H. reflexivity. Qed.
Lemma mb_err : forall {A B} (m : M pyplot A) (k : A -> M pyplot B) w e w', m w = (Err e, w') -> mbind m k w = (Err e, w').
Proof. intros A B m k w e w' H. unfold mbind. rewrite H. reflexivity. Qed.
Lemma ml : forall {A} (r : res A) a (w : pyplot), r = Ok a -> mlift r w = (Ok a, w).
Proof. intros A r a w ->. reflexivity. Qed.

Lemma add_item_snoc : forall it l cur, add_item it (l ++ [cur]) = l ++ [cur ++ [it]].
Proof.
  intros it l cur. unfold add_item. destruct (l ++ [cur]) as [|a t] eqn:E.
  { destruct l; discriminate. }
  rewrite <- E, removelast_last, last_last. reflexivity.
Qed.
Section Ev.
  Variables (l s : list fig) (fs : list (string * fig)) (d : bool) (cur : fig).
  Lemma figure_ev : figure (PP l s fs d) = (Ok tt, PP (l ++ [[]]) s fs d).
  Proof. reflexivity. Qed.
  Lemma draw_ev : forall it, draw it (PP (l ++ [cur]) s fs d) = (Ok tt, PP (l ++ [cur ++ [it]]) s fs d).
  Proof. intros it. unfold draw. cbn [p_open p_shown p_files p_dir]. rewrite add_item_snoc. reflexivity. Qed.
  Lemma plot_ev : forall kind x y, List.length x = List.length y ->
    plot kind x y (PP (l ++ [cur]) s fs d) = (Ok tt, PP (l ++ [cur ++ [ILine kind (combine x y)]]) s fs d).
  Proof. intros kind x y H. unfold plot. rewrite (proj2 (Nat.eqb_eq _ _) H). apply draw_ev. Qed.
  Lemma fill_ev : forall x y1 y2, List.length x = List.length y1 -> List.length x = List.length y2 ->
    fill_between x y1 y2 (PP (l ++ [cur]) s fs d) = (Ok tt, PP (l ++ [cur ++ [IBand (combine (combine x y1) y2)]]) s fs d).
  Proof. intros x y1 y2 H1 H2. unfold fill_between. rewrite (proj2 (Nat.eqb_eq _ _) H1), (proj2 (Nat.eqb_eq _ _) H2). apply draw_ev. Qed.
  Lemma save_ev : forall o stem lab, (o_savefigs o = true -> d = true) ->
    save_if o stem lab (PP (l ++ [cur]) s fs d) =
      (Ok tt, PP (l ++ [cur]) s (fs ++ if o_savefigs o then [(("figs/" ++ stem ++ lab ++ o_figtype o)%string, cur)] else []) d).
  Proof.
    intros o stem lab H. unfold save_if. destruct (o_savefigs o).
    - unfold savefig. cbn [p_open p_shown p_files p_dir]. rewrite H by reflexivity.
      destruct (l ++ [cur]) as [|a t] eqn:E; [destruct l; discriminate |]. rewrite <- E, last_last. reflexivity.
    - unfold mret. rewrite app_nil_r. reflexivity.
  Qed.
  Lemma show_ev : show_plot (PP l s fs d) = (Ok tt, PP [] (s ++ l) fs d).
  Proof. reflexivity. Qed.
End Ev.
Lemma draws_ev : forall its l cur s fs d, draws its (PP (l ++ [cur]) s fs d) = (Ok tt, PP (l ++ [cur ++ its]) s fs d).
Proof.
  induction its as [|it its IH]; intros l cur s fs d; simpl.
  - unfold mret. rewrite app_nil_r. reflexivity.
  - rewrite (mb _ _ _ _ _ (draw_ev l s fs d cur it)), IH, <- app_assoc. reflexivity.
Qed.

Lemma column_ok : forall X r c j, shape X = [r; c] -> (j < c)%nat -> column X j = Ok (map (fun i => X.[i, j]) (seq 0 r)).
Proof. intros X r c j H Hj. unfold column. rewrite H. destruct (Nat.ltb_spec j c); [reflexivity | lia]. Qed.
Lemma len_range1 : forall k, List.length (range1 k) = k.
Proof. intros k. unfold range1. rewrite map_length, seq_length. reflexivity. Qed.
Lemma len_map_seq : forall (f : nat -> R) k, List.length (map f (seq 0 k)) = k.
Proof. intros. rewrite map_length, seq_length. reflexivity. Qed.
Lemma combine_map : forall {A B C} (f : A -> B) (g : A -> C) l, combine (map f l) (map g l) = map (fun i => (f i, g i)) l.
Proof. induction l as [|a l IH]; simpl; [reflexivity | rewrite IH; reflexivity]. Qed.
Lemma range1_map : forall k, range1 k = map (fun i => INR (i + 1)) (seq 0 k).
Proof. intros k. unfold range1. rewrite <- seq_shift, map_map. apply map_ext. intros i. f_equal. lia. Qed.

Lemma fold_min : forall t a, (fold_left Rmin t a <= a) /\ (forall x, In x t -> fold_left Rmin t a <= x) /\
  (fold_left Rmin t a = a \/ In (fold_left Rmin t a) t).
Proof.
  induction t as [|b t IH]; intros a; simpl. { repeat split; auto; try lra. intros x []. }
  destruct (IH (Rmin a b)) as (H1 & H2 & H3). pose proof (Rmin_l a b). pose proof (Rmin_r a b). split; [lra |]. split.
  - intros x [<-|H']; [lra | auto].
  - destruct H3 as [E|E]; [|auto]. rewrite E. unfold Rmin. destruct (Rle_dec a b); auto.
Qed.
Lemma fold_max : forall t a, (a <= fold_left Rmax t a) /\ (forall x, In x t -> x <= fold_left Rmax t a) /\
  (fold_left Rmax t a = a \/ In (fold_left Rmax t a) t).
Proof.
  induction t as [|b t IH]; intros a; simpl. { repeat split; auto; try lra. intros x []. }
  destruct (IH (Rmax a b)) as (H1 & H2 & H3). pose proof (Rmax_l a b). pose proof (Rmax_r a b). split; [lra |]. split.
  - intros x [<-|H']; [lra | auto].
  - destruct H3 as [E|E]; [|auto]. rewrite E. unfold Rmax. destruct (Rle_dec a b); auto.
Qed.
Lemma rmin_ok : forall l, l <> [] -> exists a, rmin_list l = Ok a /\ In a l /\ forall x, In x l -> a <= x.
Proof.
  intros [|b t] H; [contradiction |]. destruct (fold_min t b) as (H1 & H2 & H3). exists (fold_left Rmin t b). split; [reflexivity |].
  split. { destruct H3 as [-> |E]; [left | right]; auto. } intros x [<-|H']; auto.
Qed.
Lemma rmax_ok : forall l, l <> [] -> exists a, rmax_list l = Ok a /\ In a l /\ forall x, In x l -> x <= a.
Proof.
  intros [|b t] H; [contradiction |]. destruct (fold_max t b) as (H1 & H2 & H3). exists (fold_left Rmax t b). split; [reflexivity |].
  split. { destruct H3 as [-> |E]; [left | right]; auto. } intros x [<-|H']; auto.
Qed.
Lemma in_entries2 : forall (X : nd R) r c x, shape X = [r; c] ->
  (In x (entries X) <-> exists i j, (i < r)%nat /\ (j < c)%nat /\ x = X.[i, j]).
Proof.
  intros X r c x HX. unfold entries. rewrite in_map_iff. split.
  - intros (p & <- & Hp). apply in_seq in Hp. assert (Hp' : (p < prodn (shape X))%nat) by (unfold size in Hp; lia).
    pose proof (unravel_inrange _ _ Hp') as I. rewrite HX in *. inversion I as [|? ? i j' Hi I2]. inversion I2 as [|? ? j j'' Hj I3]. inversion I3. 
    subst. eauto 7.
  - intros (i & j & Hi & Hj & ->). exists (ravel (shape X) [i; j]).
    assert (I : inrange [r; c] [i; j]) by (repeat constructor; auto). split.
    + rewrite HX, unravel_ravel by exact I. reflexivity.
    + apply in_seq. unfold size. rewrite HX. split; [lia |]. simpl.
      assert (i * (c * 1) + (j * 1 + 0) < r * (c * 1))%nat by nia. lia.
Qed.
Lemma map_seq_ne : forall (f : nat -> R) k, (0 < k)%nat -> map f (seq 0 k) <> [].
Proof. intros f [|k] H; [lia | discriminate]. Qed.

(** the default options: savefigs, type .eps, and the directory is made *)
Definition with_dir (w : pyplot) : pyplot := PP (p_open w) (p_shown w) (p_files w) true.
Lemma get_opts_none : forall {A} (k : popts -> M pyplot A) w,
  mbind (get_opts None) k w = mbind (get_opts (Some (PO true ".eps"))) k (with_dir w).
Proof. reflexivity. Qed.
