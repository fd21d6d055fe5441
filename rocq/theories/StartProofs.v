(** Proofs about the start of a traversal with start vertices that can be iterated only once. *)
From Coq Require Import List ZArith Bool.
From Verif Require Import Machine GearSpec Common PathsModel PathModel Weight HeapModel BFSModel NTDModel TopoModel DFSModel DijkstraModel AStarModel
  MSTModel BiBFSModel BiSPModel InfModel StartModel StartSpec.
Import ListNotations.

Lemma start_from_spec : forall V (build : bool) (one : option V) many,
  match start_from build true one many with
  | inl (ps, s) => exists l, given one many = inl l /\ ps = (if build then l else []) /\ fst (iterate_start s) = l
      /\ (build = true -> snd (iterate_start s) = s)
  | inr e => given one many = inr e
  end.
Proof.
  intros V build one many. destruct build, one as [v|], many as [[l|l]|]; cbn; eauto 10; eexists; repeat split; discriminate.
Qed.

Lemma start_with_visited_spec : forall V (build tree : bool) (one : option V) many,
  match start_with_visited build true true tree one many with
  | inl (ps, vs, s) => exists l, given one many = inl l /\ ps = (if build then l else []) /\ vs = (if tree then [] else l)
      /\ fst (iterate_start s) = l
  | inr e => given one many = inr e
  end.
Proof.
  intros V build tree one many. destruct build, tree, one as [v|], many as [[l|l]|]; cbn; eauto 10.
Qed.

Lemma create_predecessors_if : forall V I (vid : V -> I) (PM : PMap I V) (b : bool) l,
  create_predecessors vid PM b (if b then l else []) = create_predecessors vid PM b l.
Proof. intros. destruct b; reflexivity. Qed.

Lemma define_visited_if : forall V I (vid : V -> I) (VS : VSet I) av (b : bool) l,
  define_visited VS av (map vid (if b then [] else l)) b = define_visited VS av (map vid l) b.
Proof. intros. destruct b, av; reflexivity. Qed.

Section P.
Context {V I L : Type}.
Variable V_dec : forall a b : V, {a = b} + {a <> b}.
Variable I_dec : forall a b : I, {a = b} + {a <> b}.
Variable vid : V -> I.
Variable WT : Weights.
Notation W := (w_t WT).
Variable VS : VSet I.
Variable PM : PMap I V.
Variable LM : PMap I L.
Variable DM : DMap I W (w_inf WT).
Variable XM : DMap I Z 0%Z.

Ltac vis := match goal with |- context [start_with_visited ?b true true ?t ?o ?m] =>
  pose proof (start_with_visited_spec V b t o m) as H;
  destruct (start_with_visited b true true t o m) as [[[ps vs] s]|e];
  [ destruct H as (l & Hg & -> & -> & Hl); rewrite Hg; destruct (iterate_start s) as [l' s']; cbn [fst] in Hl; subst l';
    rewrite create_predecessors_if, define_visited_if; reflexivity
  | rewrite H; reflexivity ] end.

Lemma bfs_start_spec : forall cfg one many av lim,
  with_given (bfs_start vid VS PM LM cfg one many av lim) fst = with_given (given one many) (fun l => bfs_init vid VS PM LM cfg l av lim).
Proof. intros. unfold bfs_start. vis. Qed.

Lemma ntd_start_spec : forall cfg one many av lim,
  ntd_start vid VS PM LM cfg one many av lim = with_given (given one many) (fun l => ntd_init vid VS PM LM cfg l av lim).
Proof. intros. unfold ntd_start. vis. Qed.

Lemma topo_start_spec : forall cfg one many av lim,
  topo_start vid VS PM LM cfg one many av lim = with_given (given one many) (fun l => topo_init vid VS PM LM cfg l av lim).
Proof. intros. unfold topo_start. vis. Qed.

Lemma dfs_start_spec : forall cfg one many av lim,
  dfs_start vid VS PM LM XM cfg one many av lim = with_given (given one many) (fun l => dfs_init vid VS PM LM XM cfg l av lim).
Proof.
  intros. unfold dfs_start, dfs_init. destruct cfg as [a b ? ? ? ? ?]. cbn. destruct b, a, one as [v|], many as [[l|l]|]; reflexivity.
Qed.

Ltac wts := match goal with |- context [start_from ?b true ?o ?m] =>
  pose proof (start_from_spec V b o m) as H;
  destruct (start_from b true o m) as [[ps s]|e];
  [ destruct H as (l & Hg & -> & Hl & _); rewrite Hg; destruct (iterate_start s) as [l' s']; cbn [fst] in Hl; subst l';
    rewrite create_predecessors_if; reflexivity
  | rewrite H; reflexivity ] end.

Lemma dij_start_spec : forall cfg one many known lim,
  dij_start vid WT PM LM DM cfg one many known lim = with_given (given one many) (fun l => dij_init vid WT DM PM LM cfg l known lim).
Proof. intros. unfold dij_start. wts. Qed.

Lemma ast_start_spec : forall cfg heuristic one many known guesses lim,
  ast_start vid WT PM LM DM cfg heuristic one many known guesses lim
  = with_given (given one many) (fun l => ast_init vid WT DM PM LM cfg heuristic l known guesses lim).
Proof. intros. unfold ast_start. wts. Qed.

Lemma mst_start_spec : forall cfg one many lim,
  mst_start vid WT VS PM LM cfg one many lim = with_given (given one many) (fun l => mst_init vid WT VS PM LM cfg l lim).
Proof. intros. unfold mst_start. wts. Qed.

Variables labeled build_path fail_silently : bool.

Lemma b2_lists_spec : forall x : iterable V, b2_lists build_path x = (if build_path then elements x else [], elements x).
Proof. intros [l|l]; unfold b2_lists; destruct build_path; reflexivity. Qed.

Lemma b2_start_from_spec : forall next_f next_b one many lim n,
  b2_start_from V_dec I_dec vid WT PM LM DM labeled build_path fail_silently next_f next_b one many lim n
  = with_given (given_pair one many) (fun p => b2_run V_dec I_dec vid WT DM PM LM next_f next_b labeled build_path fail_silently (fst p) (snd p) lim n).
Proof.
  intros. unfold b2_start_from. destruct one as [[v g]|], many as [[x y]|]; try reflexivity;
  rewrite !b2_lists_spec, !create_predecessors_if; reflexivity.
Qed.

Lemma bfs_start_many : forall cfg x av lim, exists c,
  bfs_start vid VS PM LM cfg None (Some x) av lim
  = inl (bfs_init vid VS PM LM cfg (elements x) av lim, {| sv_argument := match x with Collection l => x | Iterator _ => Iterator [] end; sv_own := c |}).
Proof.
  intros cfg x av lim. destruct x as [l|l]; unfold bfs_start, bfs_init; cbn; destruct (bc_build_paths cfg), (bc_is_tree cfg), av; cbn; eexists; reflexivity.
Qed.

Lemma existsb_find : forall A (f : A -> bool) l, find f l = if existsb f l then find f l else None.
Proof. induction l as [|a l IH]; cbn; [reflexivity|]. destruct (f a); cbn; [reflexivity|exact IH]. Qed.

Lemma bb_start_from_spec : forall next_f next_b one many lim n,
  match many with Some (Iterator l, y) => forall v, In v l -> ~ In (vid v) (map vid (elements y))
                | Some (x, Iterator l) => forall v, In v l -> ~ In (vid v) (map vid (elements x))
                | _ => True end ->
  bb_start_from V_dec I_dec vid VS PM LM labeled build_path fail_silently next_f next_b one many lim n
  = with_given (given_pair one many) (fun p => bb_run V_dec I_dec vid VS PM LM next_f next_b labeled build_path fail_silently (fst p) (snd p) lim n).
Proof.
  intros next_f next_b one many lim n Hone.
  assert (Hn : forall a b : list V, (forall v, In v a -> ~ In (vid v) (map vid b)) -> bb_common I_dec vid a b = None).
  { intros a b. unfold bb_common. induction a as [|v a IH]; intros H; cbn; [reflexivity|].
    destruct (in_dec I_dec (vid v) (map vid b)) as [Hi|_]; [exfalso; exact (H v (or_introl eq_refl) Hi)|apply IH; intros w Hw; apply H; right; exact Hw]. }
  assert (Hsym : forall a b : list V, (forall v, In v a -> ~ In (vid v) (map vid b)) -> forall v, In v b -> ~ In (vid v) (map vid a)).
  { intros a b H v Hv Hin. apply in_map_iff in Hin as (u & Hu & Hin). apply (H u Hin). rewrite Hu. apply in_map. exact Hv. }
  assert (Hcol : forall a b, (if existsb (fun v => if in_dec I_dec (vid v) (map vid b) then true else false) a
      then find (fun v => if in_dec I_dec (vid v) (map vid b) then true else false) a else None) = bb_common I_dec vid a b)
    by (intros; symmetry; apply existsb_find).
  unfold bb_start_from. destruct one as [[v g]|], many as [[x y]|]; try reflexivity.
  - match goal with |- context [bfs_start vid VS PM LM ?c _ _ _ _] =>
      destruct (bfs_start_many c (Collection [v]) None lim) as [cx Ex]; destruct (bfs_start_many c (Collection [g]) None lim) as [cy Ey] end.
    rewrite Ex, Ey; clear Ex Ey; cbn [sv_argument]. cbn [iterate fst]. rewrite Hcol. unfold bb_run, with_given, given_pair, fst, snd. destruct (bb_common I_dec vid [v] [g]); reflexivity.
  - match goal with |- context [bfs_start vid VS PM LM ?c _ _ _ _] =>
      destruct (bfs_start_many c x None lim) as [cx Ex]; destruct (bfs_start_many c y None lim) as [cy Ey] end.
    rewrite Ex, Ey; clear Ex Ey; cbn [sv_argument].
    destruct x as [a|a], y as [b|b]; cbn [iterate fst snd elements existsb find given_pair with_given] in *; rewrite ?Hcol;
    unfold bb_run; try (destruct (bb_common I_dec vid a b); reflexivity).
    + rewrite (Hn a b) by (apply Hsym; exact Hone). rewrite (Hn a []) by (intros ? ? []). reflexivity.
    + rewrite (Hn a b Hone). reflexivity.
    + rewrite (Hn a b Hone). reflexivity.
Qed.
End P.

Section PInf.
Context {V : Type}.
Variable DM : DMap V (option Z) None.
Variable PM : PMap V V.
Variable DMi : DMap (V * nat) (option Z) None.
Variable PMi : PMap (V * nat) (V * nat).
Variable LMi : PMap (V * nat) unit.

Lemma inf_start_spec : forall (build store : bool) one many lim,
  match many with Some (Iterator _) => build || negb store = true | _ => True end ->
  inf_start DM PM DMi PMi LMi build store one many lim = with_given (given one many) (fun l => inf_init DM PM DMi PMi LMi build store l lim).
Proof.
  intros build store one many lim H. unfold inf_start, inf_init.
  destruct build, store, one as [v|], many as [[l|l]|]; try reflexivity. discriminate H.
Qed.

(** The other case: no start vertex is found. *)
Lemma inf_start_lost : forall l lim,
  with_given (inf_start DM PM DMi PMi LMi false true None (Some (Iterator l)) lim) n_in
  = inl (n_in (inf_init DM PM DMi PMi LMi false true [] lim)).
Proof. reflexivity. Qed.
End PInf.
