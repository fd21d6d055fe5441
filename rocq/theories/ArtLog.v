(** The algorithm of Hopcroft and Tarjan along the log of a depth-first search (DFSSpec). *)
From Coq Require Import List Bool Arith ZArith Lia.
From Verif Require Import Spec DFSSpec DFSModel DFSReports DFSLog DFSLogMore SCCSpec SCCModel SCCLog ArtSpec ArtModel.
Import ListNotations.
Open Scope Z_scope.

Section ArtLog.
Context {V L : Type}.
Variable V_dec : forall a b : V, {a = b} + {a <> b}.
Variable next : V -> list (V * L).
Variable start : V.
Notation vid := (fun v : V => v).
Notation node := (node V).
Notation log_t := (log_t V).
Notation dfs_log := (dfs_log vid next [start] (PTree (fun _ => False))).
Notation E := (edge_of next).
Notation leads := (leads E).
Notation get := (dict_get V_dec).
Notation set := (dict_set V_dec).
Notation len q := (Z.of_nat (length q)).
Notation art_state := (@art_state V).
Hypothesis Hsym : undirected E.

Definition last_vertex (p : node) (d : V) : V := match p with (_, v) :: _ => v | [] => d end.
(** What the program does along the log *)
Fixpoint alog (log : log_t) : option (list V * art_state) :=
  match log with
  | [] => Some ([], art_init)
  | (e, p) :: l =>
      match alog l with
      | None => None
      | Some (out, st) =>
          match e with
          | LSkipStart => Some (out, st)
          | _ => match art_handle V_dec (shown V_dec art_options e p) (last_vertex p start) (rev (verts p)) st with None => None | Some (vs, st') => Some (out ++ vs, st') end
          end
      end
  end.

(** ** Dictionaries *)
Lemma get_update v x w (d : list (V * Z)) : get w (dict_update V_dec v x d) = if V_dec w v then match get v d with Some _ => Some x | None => None end else get w d.
Proof.
  induction d as [|(u & y) d IH]; cbn; [destruct (V_dec w v); reflexivity|]. destruct (V_dec u v) as [->|e]; cbn.
  - destruct (V_dec v w) as [->|e']; [destruct (V_dec w w); [reflexivity|congruence]|]. destruct (V_dec w v); [congruence|reflexivity].
  - rewrite IH. destruct (V_dec u w) as [->|e']; [|reflexivity]. destruct (V_dec w v); [congruence|reflexivity].
Qed.
Lemma get_set v x w (d : list (V * Z)) : get w (set v x d) = if V_dec w v then Some x else get w d.
Proof.
  unfold dict_set. destruct (get v d) eqn:Eg.
  - rewrite get_update, Eg. reflexivity.
  - cbn. destruct (V_dec v w) as [->|e]; [destruct (V_dec w w); [reflexivity|congruence]|]. destruct (V_dec w v); [congruence|reflexivity].
Qed.

(** ** Positions in the tree *)
Section Nodes.
Variables (log : log_t) (k : nat) (open : list (DFSSpec.node V * nat)).
Hypothesis Hlog : dfs_log log k open.
Let HL := LogInv_holds _ _ _ _ _ _ _ Hlog.

Lemma node_unique j v q j' q' : entered log ((j, v) :: q) -> entered log ((j', v) :: q') -> j = j' /\ q = q'.
Proof. intros H1 H2. pose proof (tree_unique _ _ _ _ _ _ _ Hlog j v q j' v q' H1 H2 eq_refl) as K. injection K as -> ->. auto. Qed.
Lemma node_parent x y p : entered log (x :: y :: p) -> entered log (y :: p).
Proof. intros (b & H). exact (li_parent _ _ _ _ _ HL _ _ _ _ H). Qed.
Lemma node_dnode p : entered log p -> dnode next [start] p.
Proof. intros (b & H). exact (li_dnode _ _ _ _ _ HL _ _ H). Qed.
Lemma node_edge i n j u p : entered log ((i, n) :: (j, u) :: p) -> E u n.
Proof. intros H. apply node_dnode in H. inversion H; subst. eapply nth_edge; eassumption. Qed.
Lemma node_suffix d x q : entered log (d ++ x :: q) -> entered log (x :: q).
Proof.
  induction d as [|y d IH]; cbn; intros H; [exact H|]. apply IH. destruct d as [|z d]; cbn in *; exact (node_parent _ _ _ H).
Qed.
Lemma node_vertex p v : entered log p -> In v (verts p) -> exists d j q, p = d ++ (j, v) :: q /\ entered log ((j, v) :: q).
Proof.
  intros He Hv. unfold verts in Hv. apply in_map_iff in Hv. destruct Hv as ((j & v') & Hv & Hin). cbn in Hv. subst v'. apply in_split in Hin. destruct Hin as (d & q & ->). exists d, j, q. split; [reflexivity|exact (node_suffix _ _ _ He)].
Qed.
Lemma node_in d j v q j' q' : entered log (d ++ (j, v) :: q) -> entered log ((j', v) :: q') -> (j, v) :: q = (j', v) :: q'.
Proof. intros H1 H2. destruct (node_unique _ _ _ _ _ (node_suffix _ _ _ H1) H2) as (-> & ->). reflexivity. Qed.
(** A vertex on a walk of the tree has its own position there. *)
Lemma node_on p v j q : entered log p -> In v (verts p) -> entered log ((j, v) :: q) -> exists d, p = d ++ (j, v) :: q.
Proof. intros H1 H2 H3. destruct (node_vertex p v H1 H2) as (d & j' & q' & -> & H4). destruct (node_unique _ _ _ _ _ H4 H3) as (-> & ->). eauto. Qed.
Lemma node_nodup d j v q : entered log (d ++ (j, v) :: q) -> ~ In v (verts d).
Proof.
  intros H1 H2. pose proof (node_suffix _ _ _ H1) as H3. unfold verts in H2. apply in_map_iff in H2. destruct H2 as ((j' & v') & Hv & Hin). cbn in Hv. subst v'. apply in_split in Hin. destruct Hin as (d1 & d2 & ->).
  rewrite <- app_assoc in H1. cbn in H1. pose proof (node_in _ _ _ _ _ _ H1 H3) as K. injection K as _ K. apply (f_equal (@length _)) in K. rewrite app_length in K. cbn in K. lia.
Qed.
Lemma node_root p : entered log p -> exists d, p = d ++ [(O, start)].
Proof.
  intros H. apply node_dnode in H. induction H as [k0 s Hk|i n l j u p Hd (d & IH) Hn].
  - destruct k0 as [|k0]; [injection Hk as <-; exists []; reflexivity|destruct k0; discriminate].
  - exists ((i, n) :: d). cbn. rewrite IH. reflexivity.
Qed.
Lemma node_start j v : entered log [(j, v)] -> j = O /\ v = start.
Proof. intros H. destruct (node_root _ H) as (d & K). destruct d as [|x [|y d]]; [injection K as -> ->; auto|discriminate|discriminate]. Qed.
Lemma node_start' j q : entered log ((j, start) :: q) -> j = O /\ q = [].
Proof. intros H. destruct (node_root _ H) as (d & K). destruct d as [|x d]; [injection K as -> ->; auto|]. pose proof H as H'. rewrite K in H'. cbn in H'. pose proof (node_nodup (x :: d) O start [] H') as N. exfalso. apply N. cbn in K. injection K as Hx _. rewrite <- Hx. now left. Qed.

(** The open vertices *)
Lemma top_entered p r o : open = (p, r) :: o -> entered log p.
Proof. intros ->. destruct (li_open _ _ _ _ _ HL p r (or_introl eq_refl)) as (b & l1 & l2 & -> & _). exists b. apply in_or_app. right. now left. Qed.
Lemma open_grey j x p r : In ((j, x) :: p, r) open -> In x (grey open).
Proof.
  intros Hin. pose proof (li_chain _ _ _ _ _ HL) as Hc. destruct open as [|(p0 & r0) o]; [destruct Hin|]. cbn [grey]. eapply chain_verts; [exact Hc|reflexivity|exact Hin].
Qed.
(** What lies below a vertex that is not open is not open. *)
Lemma below_closed d j v q z : entered log (d ++ (j, v) :: q) -> ~ In v (grey open) -> In z (verts d) -> ~ In z (grey open).
Proof.
  intros He Hv Hd Hg. apply Hv. assert (Ho : exists p0 r0 o, open = (p0, r0) :: o) by (destruct open as [|(p0 & r0) o]; [destruct Hg|eauto]). destruct Ho as (p0 & r0 & o & Ho). pose proof (top_entered p0 r0 o Ho) as H0. rewrite Ho in Hg |- *. cbn [grey] in Hg |- *.
  unfold verts in Hd. apply in_map_iff in Hd. destruct Hd as ((jz & z') & K & Hin). cbn in K. subst z'. apply in_split in Hin. destruct Hin as (d1 & d2 & ->). rewrite <- app_assoc in He. cbn in He.
  pose proof (node_suffix _ _ _ He) as Hz'. destruct (node_on p0 z jz _ H0 Hg Hz') as (d0 & ->). unfold verts. rewrite map_app. apply in_or_app. right. right. rewrite map_app. apply in_or_app. right. now left.
Qed.
Lemma closed_seen x j p y : all_expanded log -> entered log ((j, x) :: p) -> ~ In x (grey open) -> E x y -> exists i, In ((i, y) :: (j, x) :: p) (arrivals log).
Proof.
  intros Hall He Hg HE. destruct (seen_all next [start] log k open Hlog Hall x) with (y := y) as (i & j' & p' & Hin); [exists j, x, p; auto| |exact HE|].
  - intros j0 p0 r0 Hin. exfalso. apply Hg. exact (open_grey _ _ _ _ Hin).
  - assert (He' : entered log ((j', x) :: p')) by (apply in_arrivals in Hin; destruct Hin as (e & _ & Hin); exact (li_parent _ _ _ _ _ HL _ _ _ _ Hin)).
    destruct (node_unique _ _ _ _ _ He He') as (-> & ->). eauto.
Qed.
End Nodes.

Lemma entered_dec (log : log_t) (v : V) : (exists j q, entered log ((j, v) :: q)) \/ ~ exists j q, entered log ((j, v) :: q).
Proof.
  induction log as [|(e & p) log IH]; [right; intros (j & q & b & [])|]. destruct IH as [(j & q & b & H)|IH]; [left; exists j, q, b; now right|].
  assert (D : (exists b j q, e = LEnter b /\ p = (j, v) :: q) \/ ~ exists b j q, e = LEnter b /\ p = (j, v) :: q).
  { destruct e as [b| | |]; try (right; intros (b' & j & q & K & _); discriminate). destruct p as [|(j & w) q]; [right; intros (b' & j & q & _ & K); discriminate|].
    destruct (V_dec w v) as [->|Hw]; [left; exists b, j, q; auto|]. right. intros (b' & j' & q' & _ & K). injection K as _ K _. auto. }
  destruct D as [(b & j & q & -> & ->)|D]; [left; exists j, q, b; now left|]. right. intros (j & q & b & [K|K]); [injection K as -> ->; apply D; eauto|apply IH; exists j, q, b; exact K].
Qed.

Definition kids (log : log_t) : nat := length (filter (fun p => (length p =? 2)%nat) (enters log)).
Definition no_parent (y : V) (px : node) : Prop := match px with (_, w) :: _ => y <> w | [] => True end.

Record AI (log : log_t) (k : nat) (open : list (DFSSpec.node V * nat)) (out : list V) (st : art_state) : Prop := {
  ai_depth : forall v d, get v (ar_depths st) = Some d <-> exists j q, entered log ((j, v) :: q) /\ d = len q;
  ai_low : forall j v q, entered log ((j, v) :: q) -> exists l, get v (ar_low st) = Some l /\ l <= len q /\
    (l = len q \/ exists jx x px y jy py, entered log ((jx, x) :: px) /\ In v (verts ((jx, x) :: px)) /\ E x y /\ entered log ((jy, y) :: py) /\ l = len py);
  ai_bound : forall j v q l jx x px d i y jy py, entered log ((j, v) :: q) -> get v (ar_low st) = Some l -> entered log ((jx, x) :: px) -> (jx, x) :: px = d ++ (j, v) :: q ->
    (forall z, In z (verts d) -> ~ In z (grey open)) -> In ((i, y) :: (jx, x) :: px) (arrivals log) -> no_parent y px -> entered log ((jy, y) :: py) -> l <= len py;
  ai_cross : forall i y jx x px jy py, In ((i, y) :: (jx, x) :: px) (arrivals log) -> entered log ((jy, y) :: py) -> In y (verts ((jx, x) :: px)) \/ In x (verts ((jy, y) :: py));
  ai_children : ar_children st = kids log;
  ai_out : forall v, In v out -> articulation_point E v /\ entered_id vid log v;
  ai_left : forall j v ju u q l, entered log ((j, v) :: (ju, u) :: q) -> ~ In v (grey open) -> q <> [] -> get v (ar_low st) = Some l -> len q <= l -> In u out;
  ai_root : k = 1%nat -> open = [] -> (1 < ar_children st)%nat -> In start out
}.

(** ** The events *)
Lemma arrivals_cons (log : log_t) e p x : In x (arrivals ((e, p) :: log)) <-> (arrival e = true /\ x = p) \/ In x (arrivals log).
Proof.
  unfold arrivals. cbn [filter fst]. destruct (arrival e) eqn:Ee; cbn [map snd]; split.
  - intros [<-|H]; auto.
  - intros [(_ & ->)|H]; [now left|now right].
  - auto.
  - intros [(K & _)|H]; [discriminate|exact H].
Qed.
Lemma entered_new (log : log_t) b p x : entered ((LEnter b, p) :: log) x <-> x = p \/ entered log x.
Proof. split; [intros (b' & [K|K]); [injection K as _ ->; auto|right; exists b'; exact K]|intros [->|(b' & K)]; [exists b; now left|exists b'; now right]]. Qed.
Lemma entered_same (log : log_t) e p x : (forall b, e <> LEnter b) -> (entered ((e, p) :: log) x <-> entered log x).
Proof. intros He. split; [intros (b & [K|K]); [injection K as K _; destruct (He b K)|exists b; exact K]|apply entered_cons]. Qed.
Lemma kids_same (log : log_t) e p : (forall b, e <> LEnter b) -> kids ((e, p) :: log) = kids log.
Proof. intros He. unfold kids. destruct e as [b| | |]; try reflexivity. destruct (He b eq_refl). Qed.

Lemma arrival_source log k open : dfs_log log k open -> forall i y x, In ((i, y) :: x) (arrivals log) -> x <> [] -> entered log x.
Proof.
  intros Hlog i y x Hin Hx. destruct x as [|z x]; [contradiction|]. apply in_arrivals in Hin. destruct Hin as (e & _ & Hin). exact (li_parent _ _ _ _ _ (LogInv_holds _ _ _ _ _ _ _ Hlog) _ _ _ _ Hin).
Qed.
Lemma arrival_entered log k open : dfs_log log k open -> forall i y x, In ((i, y) :: x) (arrivals log) -> exists j q, entered log ((j, y) :: q).
Proof.
  intros Hlog i y x Hin. destruct (entered_dec log y) as [H|H]; [exact H|exfalso]. apply (tree_arrivals _ _ _ _ _ _ _ Hlog i y x Hin). split; [tauto|]. intros (j & v & q & K & Hv). cbn in Hv. subst v. apply H. eauto.
Qed.

Lemma ai_enter log k open out st b j v q m open' k' :
  dfs_log log k open -> AI log k open out st -> ~ (exists j q, entered log ((j, v) :: q)) ->
  (match q with [] => open = [] | (ju, u) :: q' => E u v /\ open = (q, S j) :: open' end) ->
  forall o', AI ((LEnter b, (j, v) :: q) :: log) k' (((j, v) :: q, m) :: o') out
    {| ar_depths := set v (len q) (ar_depths st); ar_low := set v (len q) (ar_low st); ar_children := if len q =? 1 then S (ar_children st) else ar_children st |}.
Proof.
  intros Hlog H Hnew Hq o'.
  assert (Hgrey : grey open = verts q) by (destruct q as [|(ju & u) q']; [subst open; reflexivity|destruct Hq as (_ & ->); reflexivity]).
  assert (Hnv : forall jx x px, entered log ((jx, x) :: px) -> x <> v) by (intros jx x px K ->; apply Hnew; eauto).
  assert (Hqe : q <> [] -> entered log q) by (intros Hne; destruct q as [|(ju & u) q']; [contradiction|]; destruct Hq as (_ & Ho); exact (top_entered _ _ _ Hlog _ _ _ Ho)).
  constructor; cbn [ar_depths ar_low ar_children].
  - intros w d. rewrite get_set. split.
    + destruct (V_dec w v) as [->|Hw]; [intros K; injection K as <-; exists j, q; split; [apply entered_new; auto|reflexivity]|]. intros K. apply (ai_depth _ _ _ _ _ H) in K. destruct K as (j' & q' & K & ->). exists j', q'. split; [apply entered_cons, K|reflexivity].
    + intros (j' & q' & K & ->). apply entered_new in K. destruct K as [K|K]; [injection K as -> -> ->; destruct (V_dec v v); congruence|]. destruct (V_dec w v) as [->|_]; [destruct (Hnv _ _ _ K eq_refl)|]. apply (ai_depth _ _ _ _ _ H). eauto.
  - intros j' w q' K. rewrite get_set. apply entered_new in K. destruct K as [K|K].
    + injection K as -> -> ->. destruct (V_dec v v); [|congruence]. exists (len q). split; [reflexivity|]. split; [lia|auto].
    + destruct (V_dec w v) as [->|_]; [destruct (Hnv _ _ _ K eq_refl)|]. destruct (ai_low _ _ _ _ _ H j' w q' K) as (l & K1 & K2 & K3). exists l. split; [exact K1|]. split; [exact K2|].
      destruct K3 as [K3|(jx & x & px & y & jy & py & A1 & A2 & A3 & A4 & A5)]; [auto|right]. exists jx, x, px, y, jy, py. split; [apply entered_cons, A1|]. split; [exact A2|]. split; [exact A3|]. split; [apply entered_cons, A4|exact A5].
  - intros jw w qw l jx x px d i y jy py Hw Hl Hx Hd Hz Ha Hnp Hy. rewrite get_set in Hl. cbn [grey] in Hz. change (verts ((j, v) :: q)) with (v :: verts q) in Hz. apply arrivals_cons in Ha. destruct Ha as [(_ & Ha)|Ha].
    + injection Ha as -> -> Ha. subst q. assert (d = []) as ->.
      { destruct d as [|(j0 & z0) d]; [reflexivity|exfalso]. cbn in Hd. injection Hd as -> -> _. apply (Hz z0); [now left|]. right. now left. }
      cbn in Hd. injection Hd as -> -> ->. assert (Hwv : w <> v) by (apply (Hnv jw w qw), Hqe; discriminate). destruct (V_dec w v); [contradiction|].
      destruct (ai_low _ _ _ _ _ H jw w qw) as (l' & K1 & K2 & _); [apply Hqe; discriminate|]. rewrite Hl in K1. injection K1 as <-. apply entered_new in Hy. destruct Hy as [Hy|Hy]; [injection Hy as -> ->; cbn [length]; lia|destruct (Hnv _ _ _ Hy eq_refl)].
    + assert (Hxe : entered log ((jx, x) :: px)) by (apply (arrival_source _ _ _ Hlog i y _ Ha); discriminate).
      assert (Hwe : entered log ((jw, w) :: qw)) by (rewrite Hd in Hxe; exact (node_suffix _ _ _ Hlog _ _ _ Hxe)).
      destruct (V_dec w v) as [->|_]; [destruct (Hnv _ _ _ Hwe eq_refl)|].
      assert (Hyo : exists jy py, entered log ((jy, y) :: py)) by exact (arrival_entered _ _ _ Hlog _ _ _ Ha). apply entered_new in Hy. destruct Hy as [Hy|Hy]; [injection Hy as -> -> ->; destruct (Hnew Hyo)|].
      apply (ai_bound _ _ _ _ _ H jw w qw l jx x px d i y jy py); auto. intros z K1 K2. apply (Hz z K1). right. rewrite <- Hgrey. exact K2.
  - intros i y jx x px jy py Ha Hy. apply arrivals_cons in Ha. destruct Ha as [(_ & Ha)|Ha].
    + injection Ha as -> -> Ha. subst q. right. apply entered_new in Hy. destruct Hy as [Hy|Hy]; [injection Hy as -> ->; right; now left|destruct (Hnv _ _ _ Hy eq_refl)].
    + apply entered_new in Hy. destruct Hy as [Hy|Hy]; [injection Hy as -> -> ->; destruct (Hnew (arrival_entered _ _ _ Hlog _ _ _ Ha))|]. exact (ai_cross _ _ _ _ _ H i y jx x px jy py Ha Hy).
  - rewrite (ai_children _ _ _ _ _ H). unfold kids. change (enters ((LEnter b, (j, v) :: q) :: log)) with (((j, v) :: q) :: enters log). cbn [filter length]. destruct (Z.eqb_spec (len q) 1) as [K|K]; destruct (Nat.eqb_spec (S (length q)) 2) as [K'|K']; try lia; reflexivity.
  - intros w Hw. destruct (ai_out _ _ _ _ _ H w Hw) as (K1 & K2). split; [exact K1|apply entered_id_cons, K2].
  - intros j' w ju u q' l K Hg Hq' Hl Hle. rewrite get_set in Hl. cbn [grey] in Hg. change (verts ((j, v) :: q)) with (v :: verts q) in Hg. apply entered_new in K. destruct K as [K|K]; [injection K as -> -> _; exfalso; apply Hg; now left|].
    destruct (V_dec w v) as [->|_]; [destruct (Hnv _ _ _ K eq_refl)|]. apply (ai_left _ _ _ _ _ H j' w ju u q' l); auto. intros K1. apply Hg. right. rewrite <- Hgrey. exact K1.
  - discriminate.
Qed.

(** The innermost vertex [u] has an edge to the vertex [n] that has been entered before. *)
Lemma ai_non_tree log k open out st kind r n ju u q m open' m' jn qn low' :
  dfs_log log k open -> all_expanded log -> AI log k open out st -> E u n -> open = ((ju, u) :: q, m) :: open' -> entered log ((jn, n) :: qn) ->
  (match q with (_, w) :: _ => n = w | [] => False end /\ low' = ar_low st) \/
  (exists lu, get u (ar_low st) = Some lu /\ low' = if len qn <? lu then set u (len qn) (ar_low st) else ar_low st) ->
  AI ((LNonTree kind, (r, n) :: (ju, u) :: q) :: log) k (((ju, u) :: q, m') :: open') out {| ar_depths := ar_depths st; ar_low := low'; ar_children := ar_children st |}.
Proof.
  intros Hlog Hall H HE Ho Hn Hlow.
  assert (Hg : grey (((ju, u) :: q, m') :: open') = grey open) by (rewrite Ho; reflexivity).
  assert (Hgu : In u (grey open)) by (rewrite Ho; now left).
  assert (Hue : entered log ((ju, u) :: q)) by exact (top_entered _ _ _ Hlog _ _ _ Ho).
  assert (Hent : forall x, entered ((LNonTree kind, (r, n) :: (ju, u) :: q) :: log) x <-> entered log x) by (intros x; apply entered_same; discriminate).
  assert (Hlow1 : forall w, w <> u -> get w low' = get w (ar_low st)).
  { intros w Hw. destruct Hlow as [(_ & ->)|(lu & _ & ->)]; [reflexivity|]. destruct (len qn <? lu); [|reflexivity]. rewrite get_set. destruct (V_dec w u); [contradiction|reflexivity]. }
  assert (Hlow2 : exists lu lu', get u (ar_low st) = Some lu /\ get u low' = Some lu' /\ lu' <= lu /\ (lu' = lu \/ lu' = len qn) /\ (lu' <= len qn \/ match q with (_, w) :: _ => n = w | [] => False end)).
  { destruct (ai_low _ _ _ _ _ H ju u q Hue) as (lu & K1 & _). destruct Hlow as [(K & ->)|(lu' & K & ->)].
    - exists lu, lu. split; [exact K1|]. split; [exact K1|]. split; [lia|]. auto.
    - rewrite K1 in K. injection K as <-. exists lu. destruct (Z.ltb_spec (len qn) lu) as [K|K].
      + exists (len qn). split; [exact K1|]. split; [rewrite get_set; destruct (V_dec u u); congruence|]. split; [lia|]. split; [auto|left; lia].
      + exists lu. split; [exact K1|]. split; [exact K1|]. split; [lia|]. split; [auto|left; lia]. }
  destruct Hlow2 as (lu & lu' & L1 & L2 & L3 & L4 & L5).
  constructor; cbn [ar_depths ar_low ar_children].
  - intros v d. rewrite (ai_depth _ _ _ _ _ H v d). split; intros (j & p & K & ->); exists j, p; (split; [apply Hent, K|reflexivity]).
  - intros j v p K. apply Hent in K. destruct (ai_low _ _ _ _ _ H j v p K) as (l & K1 & K2 & K3). destruct (V_dec v u) as [->|Hv].
    + rewrite L1 in K1. injection K1 as <-. exists lu'. split; [exact L2|]. split; [lia|]. destruct L4 as [->| ->].
      * destruct K3 as [K3|(jx & x & px & y & jy & py & A1 & A2 & A3 & A4 & A5)]; [auto|right]. exists jx, x, px, y, jy, py. split; [apply Hent, A1|]. split; [exact A2|]. split; [exact A3|]. split; [apply Hent, A4|exact A5].
      * right. exists ju, u, q, n, jn, qn. split; [apply Hent, Hue|]. split; [now left|]. split; [exact HE|]. split; [apply Hent, Hn|reflexivity].
    + exists l. rewrite Hlow1 by exact Hv. split; [exact K1|]. split; [exact K2|].
      destruct K3 as [K3|(jx & x & px & y & jy & py & A1 & A2 & A3 & A4 & A5)]; [auto|right]. exists jx, x, px, y, jy, py. split; [apply Hent, A1|]. split; [exact A2|]. split; [exact A3|]. split; [apply Hent, A4|exact A5].
  - intros jw w qw l jx x px d i y jy py Hw Hl Hx Hd Hz Ha Hnp Hy. rewrite Hg in Hz. apply Hent in Hw. apply Hent in Hx. apply Hent in Hy. apply arrivals_cons in Ha. destruct Ha as [(_ & Ha)|Ha].
    + injection Ha as -> -> -> -> ->. assert (d = []) as ->.
      { destruct d as [|(j0 & z0) d]; [reflexivity|exfalso]. cbn in Hd. injection Hd as -> -> _. apply (Hz z0); [now left|exact Hgu]. }
      cbn in Hd. injection Hd as -> -> ->. rewrite L2 in Hl. injection Hl as <-. destruct (node_unique _ _ _ Hlog _ _ _ _ _ Hy Hn) as (-> & ->). destruct L5 as [L5|L5]; [exact L5|]. destruct qw as [|(j0 & w0) qw]; [destruct L5|]. cbn in Hnp. contradiction.
    + destruct (V_dec w u) as [->|Hwu].
      * rewrite L2 in Hl. injection Hl as <-. assert (lu <= len py); [|lia]. apply (ai_bound _ _ _ _ _ H jw u qw lu jx x px d i y jy py); auto.
      * rewrite Hlow1 in Hl by exact Hwu. apply (ai_bound _ _ _ _ _ H jw w qw l jx x px d i y jy py); auto.
  - intros i y jx x px jy py Ha Hy. apply Hent in Hy. apply arrivals_cons in Ha. destruct Ha as [(_ & Ha)|Ha]; [|exact (ai_cross _ _ _ _ _ H i y jx x px jy py Ha Hy)].
    injection Ha as -> -> -> -> ->. destruct (node_unique _ _ _ Hlog _ _ _ _ _ Hy Hn) as (-> & ->).
    destruct (in_dec V_dec n (grey open)) as [K|K]; [rewrite Ho in K; left; exact K|].
    destruct (closed_seen _ _ _ Hlog n jn qn u Hall Hn K (Hsym _ _ HE)) as (i' & K'). destruct (ai_cross _ _ _ _ _ H i' u jn n qn ju q K' Hue) as [K2|K2]; auto.
  - rewrite kids_same by discriminate. exact (ai_children _ _ _ _ _ H).
  - intros w Hw. destruct (ai_out _ _ _ _ _ H w Hw) as (K1 & K2). split; [exact K1|apply entered_id_cons, K2].
  - intros j' w ju' u' q' l K Hgw Hq' Hl Hle. rewrite Hg in Hgw. apply Hent in K. rewrite Hlow1 in Hl by (intros ->; contradiction). exact (ai_left _ _ _ _ _ H j' w ju' u' q' l K Hgw Hq' Hl Hle).
  - discriminate.
Qed.

(** ** Walks *)
Lemma leads_sym a b : leads a b -> leads b a.
Proof.
  intros (p & Hp). induction Hp as [a|a x p b He Hw (p' & IH)]; [apply leads_refl|]. apply leads_trans with x; [exists p'; exact IH|apply leads_edge, Hsym, He].
Qed.
Lemma entered_leads log k open : dfs_log log k open -> forall q j v, entered log ((j, v) :: q) -> leads start v.
Proof.
  intros Hlog. induction q as [|(ju & u) q IH]; intros j v He.
  - destruct (node_start _ _ _ Hlog j v He) as (_ & ->). apply leads_refl.
  - apply leads_trans with u; [exact (IH ju u (node_parent _ _ _ Hlog _ _ _ He))|apply leads_edge; exact (node_edge _ _ _ Hlog _ _ _ _ _ He)].
Qed.
(** There is a walk from [a] to [b] that does not come to [v]. *)
Definition lead_av (v a b : V) : Prop := exists p, walk E a p b /\ ~ In v p.
Lemma lead_av_refl v a : lead_av v a a. Proof. exists []. split; [constructor|intros []]. Qed.
Lemma lead_av_trans v a b c : lead_av v a b -> lead_av v b c -> lead_av v a c.
Proof. intros (p & Hp & Np) (q & Hq & Nq). exists (p ++ q). split; [eapply walk_app; eauto|]. intros K. apply in_app_or in K. tauto. Qed.
Lemma lead_av_edge v a b : E a b -> b <> v -> lead_av v a b.
Proof. intros H Hb. exists [b]. split; [econstructor; [exact H|constructor]|]. intros [K|[]]; congruence. Qed.
Lemma lead_av_sym v a b : a <> v -> lead_av v a b -> lead_av v b a.
Proof.
  intros Ha (p & Hp & Np). induction Hp as [a|a x p b He Hw IH]; [apply lead_av_refl|]. assert (x <> v) by (intros ->; apply Np; now left).
  apply lead_av_trans with x; [apply IH; [assumption|intros K; apply Np; now right]|apply lead_av_edge; [apply Hsym, He|exact Ha]].
Qed.
(** Up the tree *)
Lemma tree_up log k open : dfs_log log k open -> forall v j c q d jx x px, (jx, x) :: px = d ++ (j, c) :: q -> entered log ((jx, x) :: px) -> ~ In v (verts (d ++ [(j, c)])) -> lead_av v x c.
Proof.
  intros Hlog v j c q. induction d as [|(j0 & x0) d IH]; cbn [app]; intros jx x px Hd He Hv.
  - injection Hd as _ -> _. apply lead_av_refl.
  - injection Hd as -> -> ->. assert (Hne : exists j1 x1 p1, d ++ (j, c) :: q = (j1, x1) :: p1 /\ In x1 (verts (d ++ [(j, c)]))).
    { destruct d as [|(j1 & x1) d]; [exists j, c, q; split; [reflexivity|now left]|exists j1, x1, (d ++ (j, c) :: q); split; [reflexivity|now left]]. }
    destruct Hne as (j1 & x1 & p1 & K1 & K2). rewrite K1 in He. apply lead_av_trans with x1.
    + apply lead_av_edge; [apply Hsym; exact (node_edge _ _ _ Hlog _ _ _ _ _ He)|]. intros ->. apply Hv. right. exact K2.
    + apply (IH j1 x1 p1); [symmetry; exact K1|exact (node_parent _ _ _ Hlog _ _ _ He)|]. intros K. apply Hv. right. exact K.
Qed.

(** ** The vertices below [v] *)
Definition sub (log : log_t) (v x : V) : Prop := exists jx px, entered log ((jx, x) :: px) /\ In v (verts ((jx, x) :: px)).
Definition crossing (log : log_t) : Prop :=
  forall i y jx x px jy py, In ((i, y) :: (jx, x) :: px) (arrivals log) -> entered log ((jy, y) :: py) -> In y (verts ((jx, x) :: px)) \/ In x (verts ((jy, y) :: py)).

Lemma sub_closed log k open j v ju u q : dfs_log log k open -> all_expanded log -> crossing log -> entered log ((j, v) :: (ju, u) :: q) -> ~ In v (grey open) ->
  (forall jx x px d i y jy py, entered log ((jx, x) :: px) -> (jx, x) :: px = d ++ (j, v) :: (ju, u) :: q -> In ((i, y) :: (jx, x) :: px) (arrivals log) -> no_parent y px -> entered log ((jy, y) :: py) -> len q <= len py) ->
  forall x y, sub log v x -> E x y -> sub log v y \/ y = u.
Proof.
  intros Hlog Hall Hcr Hv Hg Hb x y (jx & px & Hx & Hvx) HE.
  destruct (node_on _ _ _ Hlog _ v _ _ Hx Hvx Hv) as (d & Hd).
  assert (Hxg : ~ In x (grey open)).
  { destruct d as [|(j0 & z0) d]; cbn in Hd; injection Hd as -> -> Hd; [exact Hg|]. rewrite Hd in Hx. exact (below_closed _ _ _ Hlog ((j0, z0) :: d) j v ((ju, u) :: q) z0 Hx Hg (or_introl eq_refl)). }
  destruct (closed_seen _ _ _ Hlog x jx px y Hall Hx Hxg HE) as (i & Ha). destruct (arrival_entered _ _ _ Hlog _ _ _ Ha) as (jy & py & Hy).
  assert (Hp : no_parent y px \/ exists j1 p1, px = (j1, y) :: p1).
  { destruct px as [|(j1 & w) p1]; [left; exact I|]. destruct (V_dec y w) as [->|Hw]; [right; eauto|left; exact Hw]. }
  destruct Hp as [Hp|(j1 & p1 & ->)].
  - pose proof (Hb jx x px d i y jy py Hx Hd Ha Hp Hy) as Hle. destruct (Hcr _ _ _ _ _ _ _ Ha Hy) as [K|K].
    + destruct (in_dec V_dec v (verts ((jy, y) :: py))) as [Hin|Hin]; [left; exists jy, py; auto|right].
      destruct (node_on _ _ _ Hlog _ y _ _ Hx K Hy) as (dy & Hdy). rewrite Hdy in Hd, Hx.
      assert (Hvd : In v (verts dy)). { rewrite Hdy in Hvx. unfold verts in Hvx, Hin |- *. rewrite map_app in Hvx. apply in_app_or in Hvx. tauto. }
      unfold verts in Hvd. apply in_map_iff in Hvd. destruct Hvd as ((j2 & v2) & K1 & K2). cbn in K1. subst v2. apply in_split in K2. destruct K2 as (d1 & d2 & ->). rewrite <- app_assoc in Hx. cbn in Hx.
      pose proof (node_in _ _ _ Hlog _ _ _ _ _ _ Hx Hv) as K3. injection K3 as _ K3. assert (d2 = []) as ->; [|cbn in K3; injection K3 as _ -> _; reflexivity].
      apply (f_equal (@length _)) in K3. rewrite app_length in K3. cbn in K3. destruct d2; [reflexivity|cbn in K3; lia].
    + left. exists jy, py. split; [exact Hy|]. destruct (node_on _ _ _ Hlog _ x _ _ Hy K Hx) as (dx & ->). unfold verts. rewrite map_app. apply in_or_app. right. exact Hvx.
  - destruct d as [|(j0 & z0) d]; cbn in Hd; [injection Hd as _ _ _ -> _; auto|]. injection Hd as -> -> Hd. left. exists j1, p1. split; [exact (node_parent _ _ _ Hlog _ _ _ Hx)|]. rewrite Hd. unfold verts. rewrite map_app. apply in_or_app. right. now left.
Qed.
Lemma sub_walk log v u : (forall x y, sub log v x -> E x y -> sub log v y \/ y = u) -> forall a p b, walk E a p b -> sub log v a -> In u p \/ sub log v b.
Proof.
  intros Hc a p b Hw. induction Hw as [a|a x p b He Hw IH]; intros Ha; [auto|]. destruct (Hc a x Ha He) as [K| ->]; [|left; now left]. destruct (IH K); [left; now right|auto].
Qed.

(** ** Leaving a vertex *)
Lemma ai_leave log k open out st j v ju u q l lu :
  dfs_log log k (((j, v) :: (ju, u) :: q, O) :: open) -> all_expanded log -> AI log k (((j, v) :: (ju, u) :: q, O) :: open) out st -> grey open = u :: verts q ->
  get v (ar_low st) = Some l -> get u (ar_low st) = Some lu ->
  AI ((LLeave, (j, v) :: (ju, u) :: q) :: log) k open (out ++ if (0 <? len q) && (len q <=? l) then [u] else [])
    {| ar_depths := ar_depths st; ar_low := if l <? lu then set u l (ar_low st) else ar_low st; ar_children := ar_children st |}.
Proof.
  intros Hlog Hall H Hg Hl Hlu. pose proof (dl_leave _ _ _ _ _ _ _ _ Hlog) as Hlog'.
  assert (Hall' : all_expanded ((LLeave, (j, v) :: (ju, u) :: q) :: log)) by (intros p [K|K]; [discriminate|exact (Hall p K)]).
  set (log' := (LLeave, (j, v) :: (ju, u) :: q) :: log) in *. set (low' := if l <? lu then set u l (ar_low st) else ar_low st).
  assert (Hent : forall x, entered log' x <-> entered log x) by (intros x; apply entered_same; discriminate).
  assert (Hve : entered log ((j, v) :: (ju, u) :: q)) by exact (top_entered _ _ _ Hlog _ _ _ eq_refl).
  assert (Hue : entered log ((ju, u) :: q)) by exact (node_parent _ _ _ Hlog _ _ _ Hve).
  assert (Hnod : ~ In v (u :: verts q)).
  { intros K. destruct (node_vertex _ _ _ Hlog ((ju, u) :: q) v Hue K) as (d & j' & q' & K1 & K2). destruct (node_unique _ _ _ Hlog _ _ _ _ _ Hve K2) as (-> & <-). apply (f_equal (@length _)) in K1. rewrite app_length in K1. cbn in K1. lia. }
  assert (Hvg : ~ In v (grey open)) by (rewrite Hg; exact Hnod).
  assert (Hog : forall z, In z (grey (((j, v) :: (ju, u) :: q, O) :: open)) <-> z = v \/ In z (grey open)).
  { intros z. rewrite Hg. change (grey (((j, v) :: (ju, u) :: q, O) :: open)) with (v :: u :: verts q). cbn [In]. firstorder congruence. }
  assert (Hlow1 : forall w, w <> u -> get w low' = get w (ar_low st)).
  { intros w Hw. unfold low'. destruct (l <? lu); [|reflexivity]. rewrite get_set. destruct (V_dec w u); [contradiction|reflexivity]. }
  assert (Hlow2 : exists lu', get u low' = Some lu' /\ lu' <= lu /\ lu' <= l /\ (lu' = lu \/ lu' = l)).
  { unfold low'. destruct (Z.ltb_spec l lu) as [K|K]; [exists l; rewrite get_set; destruct (V_dec u u); [|congruence]|exists lu]; (split; [congruence|]; split; [lia|]; split; [lia|auto]). }
  destruct Hlow2 as (lu' & L1 & L2 & L3 & L4).
  assert (Hvu : v <> u) by (intros ->; apply Hnod; now left).
  assert (HB : forall jw w qw lw jx x px d i y jy py, entered log' ((jw, w) :: qw) -> get w low' = Some lw -> entered log' ((jx, x) :: px) -> (jx, x) :: px = d ++ (jw, w) :: qw ->
    (forall z, In z (verts d) -> ~ In z (grey open)) -> In ((i, y) :: (jx, x) :: px) (arrivals log') -> no_parent y px -> entered log' ((jy, y) :: py) -> lw <= len py).
  { intros jw w qw lw jx x px d i y jy py Hw Hlw Hx Hd Hz Ha Hnp Hy. apply Hent in Hw. apply Hent in Hx. apply Hent in Hy. apply arrivals_cons in Ha. destruct Ha as [(K & _)|Ha]; [discriminate|].
    destruct (in_dec V_dec v (verts d)) as [Hvd|Hvd].
    - unfold verts in Hvd. apply in_map_iff in Hvd. destruct Hvd as ((j2 & v2) & K1 & K2). cbn in K1. subst v2. apply in_split in K2. destruct K2 as (d1 & d2 & ->). rewrite <- app_assoc in Hd. cbn in Hd.
      pose proof Hx as Hx'. rewrite Hd in Hx'. pose proof (node_in _ _ _ Hlog _ _ _ _ _ _ Hx' Hve) as K3. injection K3 as -> K3.
      assert (d2 = []) as ->.
      { destruct d2 as [|(j3 & z3) d2]; [reflexivity|exfalso]. cbn in K3. injection K3 as -> -> _. apply (Hz u); [unfold verts; rewrite map_app; apply in_or_app; right; right; now left|]. rewrite Hg. now left. }
      cbn in K3. injection K3 as -> -> ->. rewrite L1 in Hlw. injection Hlw as <-. assert (l <= len py); [|lia].
      apply (ai_bound _ _ _ _ _ H j v ((ju, u) :: q) l jx x px d1 i y jy py); auto. intros z K4 K5. apply Hog in K5. destruct K5 as [->|K5]; [exact (node_nodup _ _ _ Hlog _ _ _ _ Hx' K4)|].
      apply (Hz z); [unfold verts; rewrite map_app; apply in_or_app; now left|exact K5].
    - assert (Hz' : forall z, In z (verts d) -> ~ In z (grey (((j, v) :: (ju, u) :: q, O) :: open))) by (intros z K1 K2; apply Hog in K2; destruct K2 as [->|K2]; [contradiction|exact (Hz z K1 K2)]).
      destruct (V_dec w u) as [->|Hwu].
      + rewrite L1 in Hlw. injection Hlw as <-. assert (lu <= len py); [|lia]. apply (ai_bound _ _ _ _ _ H jw u qw lu jx x px d i y jy py); auto.
      + rewrite Hlow1 in Hlw by exact Hwu. apply (ai_bound _ _ _ _ _ H jw w qw lw jx x px d i y jy py); auto. }
  assert (HC : crossing log').
  { intros i y jx x px jy py Ha Hy. apply Hent in Hy. apply arrivals_cons in Ha. destruct Ha as [(K & _)|Ha]; [discriminate|]. exact (ai_cross _ _ _ _ _ H i y jx x px jy py Ha Hy). }
  constructor; cbn [ar_depths ar_low ar_children].
  - intros w d. rewrite (ai_depth _ _ _ _ _ H w d). split; intros (j' & p & K & ->); exists j', p; (split; [apply Hent, K|reflexivity]).
  - intros j' w p K. apply Hent in K. destruct (ai_low _ _ _ _ _ H j' w p K) as (lw & K1 & K2 & K3).
    assert (Hold : lw = len p \/ exists jx x px y jy py, entered log' ((jx, x) :: px) /\ In w (verts ((jx, x) :: px)) /\ E x y /\ entered log' ((jy, y) :: py) /\ lw = len py).
    { destruct K3 as [K3|(jx & x & px & y & jy & py & A1 & A2 & A3 & A4 & A5)]; [auto|right]. exists jx, x, px, y, jy, py. split; [apply Hent, A1|]. split; [exact A2|]. split; [exact A3|]. split; [apply Hent, A4|exact A5]. }
    destruct (V_dec w u) as [->|Hw]; [|exists lw; rewrite Hlow1 by exact Hw; auto].
    rewrite Hlu in K1. injection K1 as <-. exists lu'. split; [exact L1|]. split; [lia|]. destruct L4 as [->| ->]; [exact Hold|].
    destruct (node_unique _ _ _ Hlog _ _ _ _ _ K Hue) as (-> & ->).
    destruct (ai_low _ _ _ _ _ H j v ((ju, u) :: q) Hve) as (l' & A0 & A1 & A2). rewrite Hl in A0. injection A0 as <-. destruct A2 as [A2|(jx & x & px & y & jy & py & A2 & A3 & A4 & A5 & A6)].
    + cbn [length] in A2. exfalso. lia.
    + right. exists jx, x, px, y, jy, py. split; [apply Hent, A2|]. split; [|split; [exact A4|split; [apply Hent, A5|exact A6]]].
      destruct (node_on _ _ _ Hlog _ v _ _ A2 A3 Hve) as (d & ->). unfold verts. rewrite map_app. apply in_or_app. right. right. now left.
  - exact HB.
  - exact HC.
  - unfold log'. rewrite kids_same by discriminate. exact (ai_children _ _ _ _ _ H).
  - intros w Hw. apply in_app_or in Hw. destruct Hw as [Hw|Hw]; [destruct (ai_out _ _ _ _ _ H w Hw) as (K1 & K2); split; [exact K1|apply entered_id_cons, K2]|].
    destruct ((0 <? len q) && (len q <=? l)) eqn:Ec; [|destruct Hw]. destruct Hw as [<-|[]]. apply andb_prop in Ec. destruct Ec as (Ec1 & Ec2). apply Z.ltb_lt in Ec1. apply Z.leb_le in Ec2.
    split; [|exists ju, u, q; split; [apply Hent, Hue|reflexivity]].
    assert (Hcl : forall x y, sub log' v x -> E x y -> sub log' v y \/ y = u).
    { apply (sub_closed log' k open j v ju u q); auto; [apply Hent, Hve|]. intros jx x px d i y jy py Hx Hd Ha Hnp Hy. assert (l <= len py); [|lia].
      apply (HB j v ((ju, u) :: q) l jx x px d i y jy py); auto; [apply Hent, Hve|rewrite Hlow1 by exact Hvu; exact Hl|]. intros z K1. apply (below_closed _ _ _ Hlog' d j v ((ju, u) :: q)); auto. rewrite <- Hd. exact Hx. }
    exists v, start. split; [exact Hvu|]. split.
    { intros K. rewrite <- K in Hue. destruct (node_start' _ _ _ Hlog _ _ Hue) as (_ & K2). rewrite K2 in Ec1. cbn in Ec1. lia. }
    split; [apply leads_sym; exact (entered_leads _ _ _ Hlog _ _ _ Hve)|]. intros p Hp.
    destruct (sub_walk log' v u Hcl _ _ _ Hp) as [K|(js & ps & K1 & K2)]; [exists j, ((ju, u) :: q); split; [apply Hent, Hve|now left]|exact K|exfalso].
    destruct (node_start' _ _ _ Hlog' _ _ K1) as (-> & ->). destruct K2 as [K2|[]]. cbn in K2. rewrite <- K2 in Hve. destruct (node_start' _ _ _ Hlog _ _ Hve) as (_ & K3). discriminate.
  - intros j' w ju' u' q' lw K Hgw Hq' Hlw Hle. apply Hent in K. apply in_or_app. destruct (V_dec w v) as [->|Hw].
    + right. pose proof (node_unique _ _ _ Hlog _ _ _ _ _ K Hve) as (-> & K2). injection K2 as -> -> ->. rewrite Hlow1 in Hlw by exact Hvu. rewrite Hl in Hlw. injection Hlw as <-.
      replace (0 <? len q) with true by (symmetry; apply Z.ltb_lt; destruct q; [contradiction|cbn [length]; lia]). replace (len q <=? l) with true by (symmetry; apply Z.leb_le; lia). now left.
    + left. rewrite Hlow1 in Hlw by (intros ->; apply Hgw; rewrite Hg; now left). apply (ai_left _ _ _ _ _ H j' w ju' u' q' lw); auto. intros K1. apply Hog in K1. tauto.
  - intros _ ->. discriminate.
Qed.

Lemma nodup_map_left {A B} (f : A -> B) l : NoDup (map f l) -> NoDup l.
Proof. induction l as [|x l IH]; cbn; [constructor|]. intros H. inversion H as [|? ? H1 H2]; subst. constructor; [intros K; apply H1, in_map, K|auto]. Qed.

Lemma ai_leave_root log k out st j v :
  dfs_log log k [([(j, v)], O)] -> all_expanded log -> AI log k [([(j, v)], O)] out st ->
  AI ((LLeave, [(j, v)]) :: log) k [] (out ++ if (1 <? ar_children st)%nat then [v] else []) st.
Proof.
  intros Hlog Hall H. pose proof (dl_leave _ _ _ _ _ _ _ _ Hlog) as Hlog'.
  assert (Hall' : all_expanded ((LLeave, [(j, v)]) :: log)) by (intros p [K|K]; [discriminate|exact (Hall p K)]).
  set (log' := (LLeave, [(j, v)]) :: log) in *.
  assert (Hent : forall x, entered log' x <-> entered log x) by (intros x; apply entered_same; discriminate).
  assert (Hve : entered log [(j, v)]) by exact (top_entered _ _ _ Hlog _ _ _ eq_refl).
  destruct (node_start _ _ _ Hlog j v Hve) as (Hj & Hvs).
  assert (HC : crossing log').
  { intros i y jx x px jy py Ha Hy. apply Hent in Hy. apply arrivals_cons in Ha. destruct Ha as [(K & _)|Ha]; [discriminate|]. exact (ai_cross _ _ _ _ _ H i y jx x px jy py Ha Hy). }
  constructor.
  - intros w d. rewrite (ai_depth _ _ _ _ _ H w d). split; intros (j' & p & K & ->); exists j', p; (split; [apply Hent, K|reflexivity]).
  - intros j' w p K. apply Hent in K. destruct (ai_low _ _ _ _ _ H j' w p K) as (lw & K1 & K2 & K3). exists lw. split; [exact K1|]. split; [exact K2|].
    destruct K3 as [K3|(jx & x & px & y & jy & py & A1 & A2 & A3 & A4 & A5)]; [auto|right]. exists jx, x, px, y, jy, py. split; [apply Hent, A1|]. split; [exact A2|]. split; [exact A3|]. split; [apply Hent, A4|exact A5].
  - intros jw w qw lw jx x px d i y jy py Hw Hlw Hx Hd Hz Ha Hnp Hy. apply Hent in Hw. apply Hent in Hx. apply Hent in Hy. apply arrivals_cons in Ha. destruct Ha as [(K & _)|Ha]; [discriminate|].
    apply (ai_bound _ _ _ _ _ H jw w qw lw jx x px d i y jy py); auto. intros z K1 [K2|[]]. cbn in K2. subst z. rewrite Hvs in K1. unfold verts in K1. apply in_map_iff in K1. destruct K1 as ((j2 & v2) & K1 & K2). cbn in K1. subst v2. apply in_split in K2. destruct K2 as (d1 & d2 & ->).
    rewrite Hd, <- app_assoc in Hx. cbn in Hx. apply (node_suffix _ _ _ Hlog) in Hx. destruct (node_start' _ _ _ Hlog _ _ Hx) as (_ & K). destruct d2; discriminate.
  - exact HC.
  - unfold log'. rewrite kids_same by discriminate. exact (ai_children _ _ _ _ _ H).
  - intros w Hw. apply in_app_or in Hw. destruct Hw as [Hw|Hw]; [destruct (ai_out _ _ _ _ _ H w Hw) as (K1 & K2); split; [exact K1|apply entered_id_cons, K2]|].
    destruct (Nat.ltb_spec 1 (ar_children st)) as [Hc|Hc]; [|destruct Hw]. destruct Hw as [<-|[]].
    split; [|exists j, v, []; split; [apply Hent, Hve|reflexivity]].
    rewrite (ai_children _ _ _ _ _ H) in Hc. unfold kids in Hc. pose proof (nodup_map_left _ _ (tree_once _ _ _ _ _ _ _ Hlog)) as HN.
    match type of Hc with context [filter ?f ?l] => assert (HN2 : NoDup (filter f l)) by exact (NoDup_filter f HN); assert (HF : forall x, In x (filter f l) <-> In x (enters log) /\ (length x =? 2)%nat = true) by (intros x; apply (filter_In f x l)); set (fl := filter f l) in * end. clearbody fl.
    destruct fl as [|c1 [|c2 cs]]; cbn in Hc; try lia.
    assert (Hc1 : exists j1 v1, c1 = [(j1, v1); (j, v)] /\ entered log c1).
    { destruct (proj1 (HF c1) (or_introl eq_refl)) as (K1 & K2). apply in_enters in K1. apply Nat.eqb_eq in K2. destruct (node_root _ _ _ Hlog _ K1) as (d & ->). rewrite app_length in K2. destruct d as [|(j1 & v1) [|]]; cbn in K2; try lia. exists j1, v1. rewrite Hj, Hvs. auto. }
    assert (Hc2 : exists j2 v2, c2 = [(j2, v2); (j, v)] /\ entered log c2).
    { destruct (proj1 (HF c2) (or_intror (or_introl eq_refl))) as (K1 & K2). apply in_enters in K1. apply Nat.eqb_eq in K2. destruct (node_root _ _ _ Hlog _ K1) as (d & ->). rewrite app_length in K2. destruct d as [|(j1 & v1) [|]]; cbn in K2; try lia. exists j1, v1. rewrite Hj, Hvs. auto. }
    destruct Hc1 as (j1 & v1 & E1 & He1), Hc2 as (j2 & v2 & E2 & He2). subst c1 c2.
    assert (H12 : v1 <> v2). { intros <-. destruct (node_unique _ _ _ Hlog _ _ _ _ _ He1 He2) as (-> & _). inversion HN2 as [|? ? N1 N2]; subst. apply N1. now left. }
    assert (Hs1 : v1 <> v). { intros ->. destruct (node_unique _ _ _ Hlog _ _ _ _ _ He1 Hve) as (_ & K). discriminate. }
    assert (Hs2 : v2 <> v). { intros ->. destruct (node_unique _ _ _ Hlog _ _ _ _ _ He2 Hve) as (_ & K). discriminate. }
    exists v1, v2. split; [exact Hs1|]. split; [exact Hs2|]. split; [apply leads_trans with start; [apply leads_sym; exact (entered_leads _ _ _ Hlog _ _ _ He1)|exact (entered_leads _ _ _ Hlog _ _ _ He2)]|].
    intros p Hp. assert (Hcl : forall x y, sub log' v1 x -> E x y -> sub log' v1 y \/ y = v).
    { apply (sub_closed log' k [] j1 v1 j v [] Hlog' Hall' HC); [apply Hent, He1|intros []|]. intros. cbn. lia. }
    destruct (sub_walk log' v1 v Hcl _ _ _ Hp) as [K|(js & ps & K1 & K2)]; [exists j1, [(j, v)]; split; [apply Hent, He1|now left]|exact K|exfalso].
    apply Hent in K1. destruct (node_unique _ _ _ Hlog _ _ _ _ _ K1 He2) as (-> & ->). cbn in K2. destruct K2 as [K2|[K2|[]]]; congruence.
  - intros j' w ju' u' q' lw K Hgw Hq' Hlw Hle. apply Hent in K. apply in_or_app. left. apply (ai_left _ _ _ _ _ H j' w ju' u' q' lw); auto. intros [K1|[]]. cbn in K1. subst w. destruct (node_unique _ _ _ Hlog _ _ _ _ _ K Hve) as (_ & K1). discriminate.
  - intros _ _ Hc. apply in_or_app. right. apply Nat.ltb_lt in Hc. rewrite Hc. left. exact Hvs.
Qed.

Lemma ai_init : AI [] O [] [] art_init.
Proof.
  constructor; cbn.
  - intros v d. split; [discriminate|]. intros (j & q & (b & []) & _).
  - intros j v q (b & []).
  - intros j v q l jx x px d i y jy py (b & []).
  - intros i y jx x px jy py [].
  - reflexivity.
  - intros v [].
  - intros j v ju u q l (b & []).
  - intros _ _ K. lia.
Qed.

Theorem AI_holds log k open : dfs_log log k open -> all_expanded log -> exists out st, alog log = Some (out, st) /\ AI log k open out st.
Proof.
  induction 1 as [|log k s b Hd IH Hs Hm|log k s Hd IH Hs Hm|log k j u p r open n l b Hd IH Hn Hm
                 |log k j u p r open n l kind Hd IH Hn Hm Hk|log k p open Hd IH]; intros Hall;
    try (destruct (IH (fun p Hin => Hall p (or_intror Hin))) as (out & st & Ho & H); assert (Hall' : all_expanded log) by exact (fun p Hin => Hall p (or_intror Hin))); cbn [alog]; try rewrite Ho.
  - exists [], art_init. split; [reflexivity|exact ai_init].
  - assert (Hnew : ~ exists j q, entered log ((j, s) :: q)) by (intros (j & q & K); apply (proj2 Hm); exists j, s, q; auto).
    pose proof (fun m => ai_enter log k [] out st b k s [] m [] (S k) Hd H Hnew eq_refl []) as K. cbn [length] in K.
    exists (out ++ []). eexists. split; [unfold shown, event_of; cbn [last_vertex]; destruct (is_own_start V_dec [(k, s)]); cbn; reflexivity|]. rewrite app_nil_r. exact (K _).
  - exfalso. destruct (entered_dec log s) as [(j & q & K)|K]; [|apply Hm; split; [tauto|]; intros (j & w & q & K1 & K2); cbn in K2; subst w; apply K; eauto].
    destruct k as [|k]; [|destruct k; discriminate]. destruct (node_root _ _ _ Hd _ K) as (d & K2). rewrite K2 in K. apply (node_suffix _ _ _ Hd) in K. destruct K as (b & K). pose proof (li_roots _ _ _ _ _ (LogInv_holds _ _ _ _ _ _ _ Hd) _ _ _ K). lia.
  - assert (Hnew : ~ exists j q, entered log ((j, n) :: q)) by (intros (j' & q & K); apply (proj2 Hm); exists j', n, q; auto).
    pose proof (fun m => ai_enter log k _ out st b r n ((j, u) :: p) m open k Hd H Hnew (conj (nth_edge _ _ _ _ _ Hn) eq_refl) (((j, u) :: p, r) :: open)) as K.
    exists (out ++ []). eexists. split.
    + unfold shown, event_of. cbn [last_vertex]. destruct (is_own_start V_dec ((r, n) :: (j, u) :: p)); cbn [dc_report art_options art_handle]; reflexivity.
    + rewrite app_nil_r. replace (Z.of_nat (length (rev (verts ((r, n) :: (j, u) :: p)))) - 1) with (len ((j, u) :: p)) by (rewrite rev_length; unfold verts; rewrite map_length; cbn [length]; lia). exact (K _).
  - assert (He : exists jn qn, entered log ((jn, n) :: qn)).
    { destruct (entered_dec log n) as [K|K]; [exact K|exfalso]. apply Hm. split; [tauto|]. intros (j' & w & q & K1 & K2). cbn in K2. subst w. apply K. eauto. }
    destruct He as (jn & qn & He). pose proof (nth_edge _ _ _ _ _ Hn) as HE. pose proof (top_entered _ _ _ Hd _ _ _ eq_refl) as Hue.
    destruct (ai_low _ _ _ _ _ H j u p Hue) as (lu & Hlu & _). assert (Hdep : get n (ar_depths st) = Some (len qn)) by (apply (ai_depth _ _ _ _ _ H); eauto).
    pose proof (fun low' => ai_non_tree log k _ out st kind r n j u p (S r) open r jn qn low' Hd Hall' H HE eq_refl He) as K.
    assert (T3 : third_last (rev (verts ((r, n) :: (j, u) :: p))) = match p with (_, w) :: _ => Some w | [] => None end) by (unfold third_last; rewrite rev_involutive; destruct p as [|(jw & w) p]; reflexivity).
    assert (T2 : before_last (rev (verts ((r, n) :: (j, u) :: p))) = Some u) by (unfold before_last; rewrite rev_involutive; reflexivity).
    exists (out ++ []). eexists. split.
    + unfold shown, event_of. cbn [dc_report art_options art_handle last_vertex]. rewrite T3, T2, Hdep, Hlu.
      instantiate (1 := if match p with (_, w) :: _ => if V_dec n w then false else true | [] => true end then {| ar_depths := ar_depths st; ar_low := if len qn <? lu then set u (len qn) (ar_low st) else ar_low st; ar_children := ar_children st |} else st).
      destruct p as [|(jw & w) p]; [reflexivity|]. destruct (V_dec n w); reflexivity.
    + rewrite app_nil_r. destruct p as [|(jw & w) p]; [apply K; right; eauto|]. destruct (V_dec n w) as [->|Hw]; [|apply K; right; eauto].
      pose proof (K (ar_low st) (or_introl (conj eq_refl eq_refl))) as K'. destruct st. exact K'.
  - pose proof (li_chain _ _ _ _ _ (LogInv_holds _ _ _ _ _ _ _ Hd)) as Hc. inversion Hc as [|(j & v) ?|i v q ? o Hc']; subst.
    + exists (out ++ if (1 <? ar_children st)%nat then [v] else []), st. split; [reflexivity|]. exact (ai_leave_root log k out st j v Hd Hall' H).
    + destruct q as [|(ju & u) q]; [inversion Hc'|]. pose proof (top_entered _ _ _ Hd _ _ _ eq_refl) as Hve. pose proof (node_parent _ _ _ Hd _ _ _ Hve) as Hue.
      destruct (ai_low _ _ _ _ _ H i v _ Hve) as (l & Hl & _). destruct (ai_low _ _ _ _ _ H ju u q Hue) as (lu & Hlu & _).
      pose proof (ai_leave log k _ out st i v ju u q l lu Hd Hall' H eq_refl Hl Hlu) as K.
      assert (T2 : before_last (rev (verts ((i, v) :: (ju, u) :: q))) = Some u) by (unfold before_last; rewrite rev_involutive; reflexivity).
      eexists. eexists. split; [|exact K]. unfold shown, event_of. cbn [length Nat.eqb dc_report art_options art_handle last_vertex]. rewrite T2, Hl, Hlu.
      replace (Z.of_nat (length (rev (verts ((i, v) :: (ju, u) :: q)))) - 2) with (len q) by (rewrite rev_length; unfold verts; rewrite map_length; cbn [length]; lia). reflexivity.
Qed.

(** ** Completeness *)
Theorem alog_complete log out st : dfs_log log 1%nat [] -> all_expanded log -> AI log 1%nat [] out st -> (forall x, leads start x -> exists j q, entered log ((j, x) :: q)) ->
  forall v, articulation_point E v -> leads start v -> In v out.
Proof.
  intros Hlog Hall H Hreach v (a & b & Ha & Hb & Hab & Hw) Hv. destruct (in_dec V_dec v out) as [K|Hno]; [exact K|exfalso].
  assert (Hav : leads a v).
  { destruct Hab as (p & Hp). specialize (Hw p Hp). clear - Hp Hw. induction Hp as [a|a x p b He Hp IH]; [destruct Hw|]. destruct Hw as [->|Hw]; [apply leads_edge, He|]. apply leads_trans with x; [apply leads_edge, He|exact (IH Hw)]. }
  assert (Hsa : leads start a) by (apply leads_trans with v; [exact Hv|apply leads_sym, Hav]). assert (Hsb : leads start b) by (apply leads_trans with a; assumption).
  assert (Hall_to : exists t, forall w, leads start w -> w <> v -> lead_av v w t).
  { destruct (V_dec v start) as [->|Hvs].
    - (* the start vertex *)
      assert (Hk : (ar_children st <= 1)%nat) by (destruct (Nat.le_gt_cases (ar_children st) 1) as [K|K]; [exact K|exfalso; exact (Hno (ai_root _ _ _ _ _ H eq_refl eq_refl K))]).
      rewrite (ai_children _ _ _ _ _ H) in Hk. unfold kids in Hk. match type of Hk with context [filter ?f ?l] => assert (HF : forall x, In x (filter f l) <-> In x (enters log) /\ (length x =? 2)%nat = true) by (intros x; apply (filter_In f x l)); set (fl := filter f l) in * end. clearbody fl.
      assert (Hup : forall w, leads start w -> w <> start -> exists c j, In [(j, c); (O, start)] fl /\ lead_av start w c).
      { intros w Hlw Hws. destruct (Hreach w Hlw) as (j & q & He). destruct (node_root _ _ _ Hlog _ He) as (d & Hd). destruct (exists_last (l := d)) as (d' & (jc & c) & ->).
        { intros ->. cbn in Hd. injection Hd as _ -> _. congruence. }
        rewrite <- app_assoc in Hd. cbn in Hd. exists c, jc. pose proof He as He'. rewrite Hd in He'. split.
        - apply HF. split; [apply in_enters; exact (node_suffix _ _ _ Hlog _ _ _ He')|reflexivity].
        - apply (tree_up _ _ _ Hlog start jc c [(O, start)] d' j w q); auto. intros K. change ((jc, c) :: [(O, start)]) with ([(jc, c)] ++ [(O, start)]) in He'. rewrite app_assoc in He'. exact (node_nodup _ _ _ Hlog _ _ _ _ He' K). }
      destruct (Hup a Hsa Ha) as (c & jc & Hc & _). exists c. intros w Hlw Hws. destruct (Hup w Hlw Hws) as (c' & jc' & Hc' & Hl). destruct fl as [|f0 [|f1 fl']]; cbn in Hk; try lia; [destruct Hc|].
      destruct Hc as [->|[]]. destruct Hc' as [Hc'|[]]. injection Hc' as _ <-. exact Hl.
    - exists start. destruct (Hreach v Hv) as (j & q & He).
      assert (Hq : q <> []) by (intros ->; destruct (node_start _ _ _ Hlog _ _ He); contradiction).
      assert (Hfree : forall w jw qw, entered log ((jw, w) :: qw) -> ~ In v (verts ((jw, w) :: qw)) -> lead_av v w start).
      { intros w jw qw Hew Hn. destruct (node_root _ _ _ Hlog _ Hew) as (d & Hd). apply (tree_up _ _ _ Hlog v O start [] d jw w qw Hd Hew). rewrite <- Hd. exact Hn. }
      intros w Hlw Hwv. destruct (Hreach w Hlw) as (jw & qw & Hew). destruct (in_dec V_dec v (verts ((jw, w) :: qw))) as [Hin|Hin]; [|exact (Hfree w jw qw Hew Hin)].
      destruct (node_on _ _ _ Hlog _ v _ _ Hew Hin He) as (d & Hd). destruct (exists_last (l := d)) as (d' & (jc & c) & ->).
      { intros ->. cbn in Hd. injection Hd as _ K _. congruence. }
      rewrite <- app_assoc in Hd. cbn in Hd. pose proof Hew as Hew'. rewrite Hd in Hew'. pose proof (node_suffix _ _ _ Hlog _ _ _ Hew') as Hc.
      destruct (ai_low _ _ _ _ _ H jc c _ Hc) as (l & Hl & Hl2 & Hl3).
      assert (Hlt : l < len q) by (destruct (Z.lt_ge_cases l (len q)) as [K|K]; [exact K|exfalso; apply Hno; apply (ai_left _ _ _ _ _ H jc c j v q l); auto]).
      destruct Hl3 as [Hl3|(jx & x & px & y & jy & py & A1 & A2 & A3 & A4 & A5)]; [cbn [length] in Hl3; lia|].
      assert (Hvy : ~ In v (verts ((jy, y) :: py))).
      { intros K. destruct (node_on _ _ _ Hlog _ v _ _ A4 K He) as (dy & Hdy). apply (f_equal (@length _)) in Hdy. rewrite app_length in Hdy. cbn in Hdy. lia. }
      assert (Hvc : forall d0, entered log (d0 ++ (jc, c) :: (j, v) :: q) -> ~ In v (verts (d0 ++ [(jc, c)]))).
      { intros d0 K K2. change ((jc, c) :: (j, v) :: q) with ([(jc, c)] ++ (j, v) :: q) in K. rewrite app_assoc in K. exact (node_nodup _ _ _ Hlog _ _ _ _ K K2). }
      destruct (node_on _ _ _ Hlog _ c _ _ A1 A2 Hc) as (dx & Hdx). pose proof A1 as A1'. rewrite Hdx in A1'.
      assert (Hcv : c <> v) by (intros ->; apply (Hvc [] Hc); now left).
      assert (Hxv : x <> v). { intros ->. apply (Hvc dx A1'). destruct dx as [|(j0 & x0) dx]; cbn in Hdx; injection Hdx as _ -> _; now left. }
      assert (Hyv : y <> v) by (intros ->; apply Hvy; now left).
      apply lead_av_trans with c; [exact (tree_up _ _ _ Hlog v jc c _ d' jw w qw Hd Hew (Hvc d' Hew'))|].
      apply lead_av_trans with x; [apply lead_av_sym; [exact Hxv|]; exact (tree_up _ _ _ Hlog v jc c _ dx jx x px Hdx A1 (Hvc dx A1'))|].
      apply lead_av_trans with y; [exact (lead_av_edge v x y A3 Hyv)|exact (Hfree y jy py A4 Hvy)]. }
  destruct Hall_to as (t & Ht). destruct (lead_av_trans v a t b (Ht a Hsa Ha) (lead_av_sym v b t Hb (Ht b Hsb Hb))) as (p & Hp & Np). exact (Np (Hw p Hp)).
Qed.
End ArtLog.
