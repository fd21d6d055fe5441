(** Facts about growing a forest of paths: vertices that are found once, marked as visited, with a predecessor and the
    labels of the edge from it. *)
From Coq Require Import List ZArith Bool Lia Arith.
From Verif Require Import GearSpec Spec TraversalSpec Common CommonProofs PathsModel PathsSpec PathsProofs BFSProofs.
Import ListNotations.

Section Forest.
Context {V I L : Type}.
Variable vid : V -> I.
Variable VS : VSet I.
Variable PM : PMap I V.
Variable LM : PMap I L.
Variable next : V -> list (V * L).
Variable E : I -> I -> Prop.
Hypothesis Hnext : presents vid next E.
Variables build labeled : bool.
Variable preloaded : I -> Prop.

Notation Eo := (avoiding E preloaded).
Definition fid (e : V * nat) : I := vid (fst e).
Definition root (roots : list V) (i : I) : Prop := In i (map vid roots).
Definition found (roots : list V) (F : list (V * nat)) (i : I) : Prop := root roots i \/ In i (map fid F).
(** [v] has been found at depth [k]. *)
Definition known (roots : list V) (F : list (V * nat)) (v : V) (k : nat) : Prop := (In v roots /\ k = 0) \/ In (v, k) F.
Definition edge_open (u w : V) : Prop := In w (map fst (next u)) /\ ~ preloaded (vid w).

Definition fpath (roots : list V) (F : list (V * nat)) (pred : pm_t PM) (v : V) (k : nat) : Prop :=
  exists l, ppath vid PM pred v l /\ length l = S k /\
            path_list edge_open (fun u => In u roots) (rev l) v /\
            (forall u, In u l -> In u roots \/ In u (map fst F)).

Record Forest (roots : list V) (F : list (V * nat)) (vis : vs_t VS) (pred : pm_t PM) (labels : pm_t LM) : Prop := {
  f_vis : forall i, vs_mem VS i vis = true <-> (preloaded i \/ found roots F i);
  f_nodup : NoDup (map fid F);
  f_F : forall v k, In (v, k) F -> ~ preloaded (vid v) /\ ~ root roots (vid v) /\ 1 <= k /\
        exists s0 p, root roots s0 /\ walk Eo s0 p (vid v) /\ length p = k;
  f_path : build = true -> starts_distinct vid roots ->
        forall v k, known roots F v k -> fpath roots F pred v k;
  f_lab : build = true -> labeled = true -> forall v k, In (v, k) F -> exists u l,
          pm_get PM (vid v) pred = Some u /\ pm_get LM (vid v) labels = Some l /\ In (v, l) (next u)
}.

Lemma known_found roots F v k : known roots F v k -> found roots F (vid v).
Proof.
  intros [[H _]|H]; [left; now apply in_map|right]. apply in_map_iff. exists (v, k). auto.
Qed.
Lemma known_app roots F G v k : known roots F v k -> known roots (F ++ G) v k.
Proof. intros [H|H]; [now left|right]. apply in_or_app; auto. Qed.
Lemma known_walk roots F vis pred labels v k : Forest roots F vis pred labels -> known roots F v k ->
  exists s0 p, root roots s0 /\ walk Eo s0 p (vid v) /\ length p = k.
Proof.
  intros HF [[H ->]|H].
  - exists (vid v), []. split; [now apply in_map|]. split; [constructor|reflexivity].
  - apply (f_F _ _ _ _ _ HF) in H. apply H.
Qed.

Lemma fpath_ext roots F G pred pred' v k : fpath roots F pred v k ->
  (forall i, found roots F i -> pm_get PM i pred' = pm_get PM i pred) -> fpath roots (F ++ G) pred' v k.
Proof.
  intros (l & H1 & H2 & H3 & H4) Hp. exists l. split; [|split; [auto|split; [auto|]]].
  - eapply ppath_ext; eauto. intros w Hw. apply Hp. destruct (H4 w Hw) as [Hr|Hr].
    + left. now apply in_map.
    + right. apply in_map_iff in Hr. destruct Hr as (e & <- & He). apply in_map_iff. exists e. auto.
  - intros w Hw. destruct (H4 w Hw); auto. right. rewrite map_app. apply in_or_app; auto.
Qed.

(** Predecessors and labels of vertices that have not been found do not matter. *)
Lemma Forest_ext roots F vis pred labels pred' labels' : Forest roots F vis pred labels ->
  (forall i, found roots F i -> pm_get PM i pred' = pm_get PM i pred /\ pm_get LM i labels' = pm_get LM i labels) ->
  Forest roots F vis pred' labels'.
Proof.
  intros [H1 H2 H3 H4 H5] He. constructor; auto.
  - intros Hb Hd v k Hk. rewrite <- (app_nil_r F). eapply fpath_ext; eauto. intros i Hi. now apply He.
  - intros Hb Hl v k Hin. destruct (H5 Hb Hl v k Hin) as (u & l & K1 & K2 & K3). exists u, l.
    destruct (He (vid v)) as [-> ->]; auto. right. apply in_map_iff. exists (v, k). auto.
Qed.

(** A neighbor [n] of a found vertex [v] is found. *)
Lemma Forest_add roots F vis pred labels v k n l : Forest roots F vis pred labels ->
  known roots F v k -> In (n, l) (next v) -> vs_mem VS (vid n) vis = false ->
  (build = true -> pm_get PM (vid n) pred = Some v) ->
  (build = true -> labeled = true -> pm_get LM (vid n) labels = Some l) ->
  Forest roots (F ++ [(n, S k)]) (vs_add VS (vid n) vis) pred labels.
Proof.
  intros [H1 H2 H3 H4 H5] Hk Hin Hm Hp Hl.
  assert (Hn : ~ (preloaded (vid n) \/ found roots F (vid n))) by (rewrite <- H1; congruence).
  assert (Hopen : Eo (vid v) (vid n)).
  { split; [|tauto]. apply Hnext. apply in_map_iff. exists (n, l). auto. }
  constructor.
  - intros i. rewrite vs_mem_add, H1. unfold found. rewrite map_app, in_app_iff. simpl.
    change (fid (n, S k)) with (vid n). intuition congruence.
  - rewrite map_app. apply NoDup_snoc; auto. intros Hx. apply Hn. right. now right.
  - intros w m Hw. apply in_app_or in Hw. destruct Hw as [Hw|[Hw|[]]]; auto.
    injection Hw as <- <-. split; [tauto|]. split; [unfold found in Hn; tauto|]. split; [lia|].
    destruct (known_walk roots F vis pred labels v k (Build_Forest _ _ _ _ _ H1 H2 H3 H4 H5) Hk) as (s0 & p & K1 & K2 & K3).
    exists s0, (p ++ [vid n]). split; [auto|]. split; [eapply walk_snoc; eauto|]. rewrite app_length. simpl. lia.
  - intros Hb Hd w m [Hw|Hw].
    { eapply fpath_ext; [apply (H4 Hb Hd w m); now left|auto]. }
    apply in_app_or in Hw. destruct Hw as [Hw|[Hw|[]]].
    { eapply fpath_ext; [apply (H4 Hb Hd w m); now right|auto]. }
    injection Hw as <- <-. destruct (fpath_ext roots F [(n, S k)] pred pred v k (H4 Hb Hd v k Hk) ltac:(auto)) as (lp & P1 & P2 & P3 & P4).
    exists (n :: lp). split; [|split; [|split]].
    + eapply pp_step; eauto. intros <-. apply Hn. right. eapply known_found; eauto.
    + simpl. lia.
    + simpl. destruct P3 as (s0 & p & Hrev & Hs0 & Hwk). rewrite Hrev. exists s0, (p ++ [n]). split; [reflexivity|]. split; [auto|].
      eapply walk_snoc; eauto. split; [|tauto]. apply in_map_iff. exists (n, l). auto.
    + intros u [<-|Hu]; auto. right. rewrite map_app. apply in_or_app. right; now left.
  - intros Hb Hlb w m Hw. apply in_app_or in Hw. destruct Hw as [Hw|[Hw|[]]]; [eauto|].
    injection Hw as <- <-. exists v, l. auto.
Qed.

(** A new root. *)
Lemma Forest_root roots F vis pred labels v : Forest roots F vis pred labels ->
  vs_mem VS (vid v) vis = false -> (build = true -> pm_get PM (vid v) pred = Some v) ->
  Forest (roots ++ [v]) F (vs_add VS (vid v) vis) pred labels.
Proof.
  intros [H1 H2 H3 H4 H5] Hm Hp.
  assert (Hn : ~ (preloaded (vid v) \/ found roots F (vid v))) by (rewrite <- H1; congruence).
  constructor; auto.
  - intros i. rewrite vs_mem_add, H1. unfold found, root. rewrite map_app, in_app_iff. simpl. intuition congruence.
  - intros w k Hw. destruct (H3 w k Hw) as (K1 & K2 & K3 & s0 & p & K4 & K5). split; [auto|]. split; [|split; [auto|]].
    + unfold root. rewrite map_app, in_app_iff. simpl. intros [Hr|[Hr|[]]]; [auto|]. apply Hn. right. right.
      rewrite Hr. apply in_map_iff. exists (w, k). auto.
    + exists s0, p. split; auto. unfold root. rewrite map_app, in_app_iff. auto.
  - intros Hb Hd.
    assert (Hd2 : starts_distinct vid roots).
    { intros a b Ha Hb'. apply Hd; apply in_or_app; auto. }
    assert (Hold : forall w k, known roots F w k -> fpath (roots ++ [v]) F pred w k).
    { intros w k Hw. destruct (H4 Hb Hd2 w k Hw) as (l & K1 & K2 & K3 & K4). exists l. split; [auto|]. split; [auto|]. split.
      - destruct K3 as (s0 & p & Hr & Hs & Hwk). exists s0, p. split; auto. split; auto. apply in_or_app; auto.
      - intros u Hu. destruct (K4 u Hu); auto. left. apply in_or_app; auto. }
    intros w k [[Hw ->]|Hw]; [|apply Hold; now right]. apply in_app_or in Hw. destruct Hw as [Hw|[<-|[]]].
    + apply Hold. now left.
    + exists [v]. split; [apply pp_start; auto|]. split; [reflexivity|]. split.
      * exists v, []. split; [reflexivity|]. split; [apply in_or_app; simpl; auto|constructor].
      * intros u [<-|[]]. left. apply in_or_app; simpl; auto.
Qed.

Lemma Forest_delivers_list V_dec roots F vis pred labels v k l : Forest roots F vis pred labels ->
  build = true -> starts_distinct vid roots -> known roots F v k ->
  ppath vid PM pred v l -> (forall u, In u l -> In u roots \/ In u (map fst F)) ->
  delivers V_dec vid PM LM pred labels labeled (next_label next) v (rev l).
Proof.
  intros HF Hb Hd Hk K1 K4. apply ppath_delivers; auto. intros Hl u w Hin.
  destruct (edges_to_start_in vid PM pred v l K1 u w Hin) as (G1 & G2 & G3 & G4).
  destruct (K4 w G3) as [Hr|Hr].
  - exfalso. assert (Hfr := f_path _ _ _ _ _ HF Hb Hd w 0 (or_introl (conj Hr eq_refl))).
    destruct Hfr as (l0 & Hp0 & Hl0 & _). destruct l0 as [|x [|y l0]]; simpl in Hl0; try lia.
    inversion Hp0; subst.
    + congruence.
    + match goal with H : ppath _ _ _ _ [] |- _ => inversion H end.
  - apply in_map_iff in Hr. destruct Hr as ([w' m] & Heq & Hr). simpl in Heq. subst w'.
    destruct (f_lab _ _ _ _ _ HF Hb Hl w m Hr) as (u2 & d & D1 & D2 & D3).
    rewrite G1 in D1. injection D1 as <-. exists d. auto.
Qed.

Lemma Forest_delivers V_dec roots F vis pred labels v k : Forest roots F vis pred labels ->
  build = true -> starts_distinct vid roots -> known roots F v k ->
  exists l, path_list edge_open (fun u => In u roots) l v /\ length l = S k /\
    (forall u, In u l -> In u roots \/ In u (map fst F)) /\
    delivers V_dec vid PM LM pred labels labeled (next_label next) v l.
Proof.
  intros HF Hb Hd Hk. destruct (f_path _ _ _ _ _ HF Hb Hd v k Hk) as (l & K1 & K2 & K3 & K4).
  exists (rev l). split; [auto|]. split; [now rewrite rev_length|]. split.
  - intros u Hu. apply K4. now apply in_rev.
  - eapply Forest_delivers_list; eauto.
Qed.

(** The same path is delivered later on. *)
Lemma Forest_delivers_both V_dec roots F vis pred labels pred' labels' v k : Forest roots F vis pred labels ->
  (forall i, found roots F i -> pm_get PM i pred' = pm_get PM i pred /\ pm_get LM i labels' = pm_get LM i labels) ->
  build = true -> starts_distinct vid roots -> known roots F v k ->
  exists l, path_list edge_open (fun u => In u roots) l v /\ length l = S k /\
    (forall u, In u l -> In u roots \/ In u (map fst F)) /\
    delivers V_dec vid PM LM pred labels labeled (next_label next) v l /\
    delivers V_dec vid PM LM pred' labels' labeled (next_label next) v l.
Proof.
  intros HF He Hb Hd Hk. destruct (f_path _ _ _ _ _ HF Hb Hd v k Hk) as (l & K1 & K2 & K3 & K4).
  exists (rev l). split; [auto|]. split; [now rewrite rev_length|]. split.
  - intros u Hu. apply K4. now apply in_rev.
  - split; [eapply Forest_delivers_list; eauto|].
    eapply Forest_delivers_list; [eapply Forest_ext; eauto|auto|auto|eauto| |auto].
    eapply ppath_ext; eauto. intros u Hu. apply He. destruct (K4 u Hu) as [Hr|Hr].
    + left. now apply in_map.
    + right. apply in_map_iff in Hr. destruct Hr as (e & <- & Hi). apply in_map_iff. exists e. auto.
Qed.

(** All is found if each found vertex is closed. *)
Lemma Forest_closed roots F : (forall i j, found roots F i -> Eo i j -> found roots F j) ->
  forall i, reachable Eo (root roots) i -> found roots F i.
Proof. intros Hc. apply reachable_ind'; [now left|]. eauto. Qed.

Lemma Forest_reach roots F vis pred labels i : Forest roots F vis pred labels -> found roots F i ->
  reachable Eo (root roots) i.
Proof.
  intros HF [Hr|Hi]; [now apply reachable_start|]. apply in_map_iff in Hi. destruct Hi as ([v k] & <- & Hi).
  apply (f_F _ _ _ _ _ HF) in Hi. destruct Hi as (_ & _ & _ & s0 & p & K1 & K2 & _). exists s0, p. auto.
Qed.

Lemma Forest_init (I_dec : forall a b : I, {a = b} + {a <> b}) (roots : list V) vis labels :
  (forall i, vs_mem VS i vis = true <-> preloaded i \/ root roots i) ->
  Forest roots [] vis (create_predecessors vid PM build roots) labels.
Proof.
  intros Hv. constructor; simpl; try contradiction; try constructor.
  - rewrite Hv. unfold found. simpl. tauto.
  - rewrite Hv. unfold found. simpl. tauto.
  - intros Hb Hd v k [[Hin ->]|[]]. exists [v]. split; [|split; [reflexivity|split]].
    + apply pp_start. rewrite Hb. apply create_predecessors_start; auto.
    + exists v, []. split; [reflexivity|]. split; auto. constructor.
    + intros u [<-|[]]. auto.
Qed.
End Forest.
