(** Paths that are read from containers with equal content are equal. *)
From Coq Require Import List Arith.
From Verif Require Import GearSpec Spec Common PathsModel PathModel BFSSim.
Import ListNotations.

(** Path objects whose methods deliver the same path, up to renaming of the vertices. *)
Record same_path {V1 V2 L : Type} (f : V1 -> V2) (p1 : path_obj V1 L) (p2 : path_obj V2 L) : Prop := {
  sp_labeled : po_labeled p2 = po_labeled p1;
  sp_vertices : forall n, path_vertices_from_start p2 n = pres_map (map f) (path_vertices_from_start p1 n);
  sp_vertices_back : forall n, path_vertices_to_start p2 n = pres_map (map f) (path_vertices_to_start p1 n);
  sp_edges : forall n, path_edges_from_start p2 n = pres_map (map (fun e => (f (fst e), f (snd e)))) (path_edges_from_start p1 n);
  sp_edges_back : forall n, path_edges_to_start p2 n = pres_map (map (fun e => (f (fst e), f (snd e)))) (path_edges_to_start p1 n);
  sp_labeled_edges : forall n, path_labeled_edges_from_start p2 n = pres_map (map (fun e => (f (fst (fst e)), f (snd (fst e)), snd e))) (path_labeled_edges_from_start p1 n);
  sp_labeled_edges_back : forall n, path_labeled_edges_to_start p2 n = pres_map (map (fun e => (f (fst (fst e)), f (snd (fst e)), snd e))) (path_labeled_edges_to_start p1 n)
}.

Section PathSim.
Context {V1 V2 I L : Type}.
Variable V1_dec : forall a b : V1, {a = b} + {a <> b}.
Variable V2_dec : forall a b : V2, {a = b} + {a <> b}.
Variable f : V1 -> V2.
Hypothesis Hinj : forall a b, f a = f b -> a = b.
Variable vid1 : V1 -> I.
Variable vid2 : V2 -> I.
Hypothesis Hvid : forall v, vid2 (f v) = vid1 v.
Variable PM1 : PMap I V1.
Variable PM2 : PMap I V2.
Variables LM1 LM2 : PMap I L.
Definition f2 (e : V1 * V1) : V2 * V2 := (f (fst e), f (snd e)).
Definition f3 {A} (e : V1 * V1 * A) : V2 * V2 * A := (f (fst (fst e)), f (snd (fst e)), snd e).

Section One.
Variable pred1 : pm_t PM1.
Variable pred2 : pm_t PM2.
Variable labels1 : pm_t LM1.
Variable labels2 : pm_t LM2.
Hypothesis Hpred : same_map f PM1 PM2 pred1 pred2.
Hypothesis Hlab : same_map (fun l => l) LM1 LM2 labels1 labels2.

Lemma contains_sim v : paths_contains vid2 PM2 pred2 (f v) = paths_contains vid1 PM1 pred1 v.
Proof. unfold paths_contains. rewrite Hvid, <- (Hpred (vid1 v)). destruct (pm_get PM1 (vid1 v) pred1); reflexivity. Qed.

Lemma vertices_loop_sim n : forall v, vertices_to_start_loop V2_dec vid2 PM2 pred2 n (f v) = pres_map (map f) (vertices_to_start_loop V1_dec vid1 PM1 pred1 n v).
Proof.
  induction n as [|n IH]; intros v; [reflexivity|]. cbn [vertices_to_start_loop]. rewrite Hvid, <- (Hpred (vid1 v)).
  destruct (pm_get PM1 (vid1 v) pred1) as [u|]; [|reflexivity]. cbn [option_map].
  destruct (V1_dec v u) as [->|Hne]; destruct (V2_dec (f _) (f u)) as [He|Hne2]; try congruence; [reflexivity|apply Hinj in He; congruence|].
  rewrite IH. destruct (vertices_to_start_loop V1_dec vid1 PM1 pred1 n u); reflexivity.
Qed.

Lemma vertices_to_sim n v : iter_vertices_to_start V2_dec vid2 PM2 pred2 n (f v) = pres_map (map f) (iter_vertices_to_start V1_dec vid1 PM1 pred1 n v).
Proof. unfold iter_vertices_to_start. rewrite contains_sim. destruct (paths_contains vid1 PM1 pred1 v); [apply vertices_loop_sim|reflexivity]. Qed.

Lemma vertices_from_sim n v : iter_vertices_from_start V2_dec vid2 PM2 pred2 n (f v) = pres_map (map f) (iter_vertices_from_start V1_dec vid1 PM1 pred1 n v).
Proof. unfold iter_vertices_from_start. rewrite vertices_to_sim. destruct (iter_vertices_to_start V1_dec vid1 PM1 pred1 n v); simpl; auto. now rewrite map_rev. Qed.

Lemma raw_loop_sim n : forall v, raw_edges_loop V2_dec vid2 PM2 pred2 n (f v) = pres_map (map f3) (raw_edges_loop V1_dec vid1 PM1 pred1 n v).
Proof.
  induction n as [|n IH]; intros v; [reflexivity|]. cbn [raw_edges_loop]. rewrite Hvid, <- (Hpred (vid1 v)).
  destruct (pm_get PM1 (vid1 v) pred1) as [u|]; [|reflexivity]. cbn [option_map].
  destruct (V1_dec u v) as [->|Hne]; destruct (V2_dec (f u) (f _)) as [He|Hne2] || destruct (V2_dec (f v) (f v)) as [He|Hne2]; try congruence; try reflexivity; [apply Hinj in He; congruence|].
  rewrite IH. destruct (raw_edges_loop V1_dec vid1 PM1 pred1 n u); reflexivity.
Qed.

Lemma raw_sim n v : iter_raw_edges_to_start V2_dec vid2 PM2 pred2 n (f v) = pres_map (map f3) (iter_raw_edges_to_start V1_dec vid1 PM1 pred1 n v).
Proof. unfold iter_raw_edges_to_start. rewrite contains_sim. destruct (paths_contains vid1 PM1 pred1 v); [apply raw_loop_sim|reflexivity]. Qed.

Lemma path_edges_sim l : iter_path_edges LM2 labels2 (map f3 l) = pres_map (map f3) (iter_path_edges LM1 labels1 l).
Proof.
  induction l as [|[[u v] i] l IH]; [reflexivity|]. cbn [map iter_path_edges f3 fst snd]. rewrite <- (Hlab i).
  destruct (pm_get LM1 i labels1); [|reflexivity]. cbn [option_map]. rewrite IH. destruct (iter_path_edges LM1 labels1 l); reflexivity.
Qed.

Lemma labeled_to_sim b n v : labeled_edges_to_start V2_dec vid2 PM2 LM2 b pred2 labels2 n (f v) = pres_map (map f3) (labeled_edges_to_start V1_dec vid1 PM1 LM1 b pred1 labels1 n v).
Proof.
  unfold labeled_edges_to_start. destruct b; [|reflexivity]. unfold iter_labeled_edges_to_start. rewrite raw_sim.
  destruct (iter_raw_edges_to_start V1_dec vid1 PM1 pred1 n v); simpl; auto using path_edges_sim.
Qed.

Lemma labeled_from_sim b n v : labeled_edges_from_start V2_dec vid2 PM2 LM2 b pred2 labels2 n (f v) = pres_map (map f3) (labeled_edges_from_start V1_dec vid1 PM1 LM1 b pred1 labels1 n v).
Proof.
  unfold labeled_edges_from_start. destruct b; [|reflexivity]. unfold iter_labeled_edges_from_start. rewrite raw_sim.
  destruct (iter_raw_edges_to_start V1_dec vid1 PM1 pred1 n v); simpl; auto. rewrite <- map_rev. apply path_edges_sim.
Qed.
End One.

Lemma pairs_map (l : list V1) : pairs (map f l) = map f2 (pairs l).
Proof. induction l as [|a [|b l] IH]; try reflexivity. change (pairs (map f (a :: b :: l))) with ((f a, f b) :: pairs (map f (b :: l))). rewrite IH. reflexivity. Qed.

(** It suffices to compare what the object stores. *)
Lemma same_path_intro (p1 : path_obj V1 L) (p2 : path_obj V2 L) : po_labeled p2 = po_labeled p1 ->
  (forall n, po_vertex_forwards p2 n = pres_map (map f) (po_vertex_forwards p1 n)) ->
  (forall n, po_vertex_backwards p2 n = pres_map (map f) (po_vertex_backwards p1 n)) ->
  (forall n, po_edge_forwards p2 n = pres_map (map f3) (po_edge_forwards p1 n)) ->
  (forall n, po_edge_backwards p2 n = pres_map (map f3) (po_edge_backwards p1 n)) -> same_path f p1 p2.
Proof.
  intros H0 H1 H2 H3 H4. constructor; auto; intros n.
  - unfold path_edges_from_start. rewrite H1. destruct (po_vertex_forwards p1 n); simpl; auto. now rewrite pairs_map.
  - unfold path_edges_to_start. rewrite H2. destruct (po_vertex_backwards p1 n); simpl; auto. rewrite pairs_map, !map_map. reflexivity.
Qed.

Lemma pres_app_map {A B} (g : A -> B) x y : pres_app (pres_map (map g) x) (pres_map (map g) y) = pres_map (map g) (pres_app x y).
Proof. destruct x, y; simpl; auto. now rewrite map_app. Qed.

Lemma removelast_map {A B} (g : A -> B) l : removelast (map g l) = map g (removelast l).
Proof. induction l as [|a [|b l] IH]; auto. change (removelast (map g (a :: b :: l))) with (g a :: removelast (map g (b :: l))). rewrite IH. reflexivity. Qed.

Lemma joined_sim labeled pf1 pf2 lf1 lf2 pb1 pb2 lb1 lb2 v :
  same_map f PM1 PM2 pf1 pf2 -> same_map (fun l => l) LM1 LM2 lf1 lf2 -> same_map f PM1 PM2 pb1 pb2 -> same_map (fun l => l) LM1 LM2 lb1 lb2 ->
  same_path f (from_bidirectional_search V1_dec vid1 PM1 LM1 labeled pf1 lf1 pb1 lb1 v) (from_bidirectional_search V2_dec vid2 PM2 LM2 labeled pf2 lf2 pb2 lb2 (f v)).
Proof.
  intros H1 H2 H3 H4. apply same_path_intro; simpl; auto; intros n.
  - rewrite (vertices_from_sim pf1 pf2), (vertices_to_sim pb1 pb2), <- pres_app_map by auto. f_equal.
    destruct (iter_vertices_from_start V1_dec vid1 PM1 pf1 n v); simpl; auto. unfold take_except_for_last. now rewrite removelast_map.
  - rewrite (vertices_from_sim pb1 pb2), (vertices_to_sim pf1 pf2), <- pres_app_map by auto. f_equal.
    destruct (iter_vertices_to_start V1_dec vid1 PM1 pf1 n v) as [l|x|]; simpl; auto. destruct l; reflexivity.
  - rewrite (labeled_from_sim pf1 pf2 lf1 lf2), (labeled_to_sim pb1 pb2 lb1 lb2), <- pres_app_map by auto. f_equal.
    destruct (labeled_edges_to_start V1_dec vid1 PM1 LM1 labeled pb1 lb1 n v); simpl; auto. unfold reverse_edges. rewrite !map_map. reflexivity.
  - rewrite (labeled_from_sim pb1 pb2 lb1 lb2), (labeled_to_sim pf1 pf2 lf1 lf2), <- pres_app_map by auto. f_equal.
    destruct (labeled_edges_from_start V1_dec vid1 PM1 LM1 labeled pb1 lb1 n v); simpl; auto. unfold reverse_edges. rewrite !map_map. reflexivity.
Qed.

Lemma from_vertex_sim labeled v : same_path f (from_vertex labeled v : path_obj V1 L) (from_vertex labeled (f v)).
Proof. apply same_path_intro; auto. Qed.
Lemma of_nothing_sim labeled : same_path f (of_nothing labeled : path_obj V1 L) (of_nothing labeled).
Proof. apply same_path_intro; auto. Qed.
End PathSim.
