(** Graph theory for minimum spanning trees. *)
From Coq Require Import List Bool Permutation.
From Verif Require Import Weight WeightSpec AStarSpec MSTSpec.
Import ListNotations.

Section MSTGraph.
Context {I : Type}.
Variable I_dec : forall a b : I, {a = b} + {a <> b}.
Variable WT : Weights.
Notation W := (w_t WT).
Notation leb := (w_leb WT).
Variable E : I -> W -> I -> Prop.
Implicit Types F T : list (I * W * I).
Notation linked := (linked WT).
Notation joined := (joined WT).

Lemma joined_sym F i j : joined F i j -> joined F j i.
Proof. intros [w [H|H]]; exists w; auto. Qed.
Lemma linked_trans F i j k : linked F i j -> linked F j k -> linked F i k.
Proof. induction 1; auto. intros. econstructor; eauto. Qed.
Lemma linked_joined F i j : joined F i j -> linked F i j.
Proof. intros. econstructor; eauto. constructor. Qed.
Lemma linked_sym F i j : linked F i j -> linked F j i.
Proof.
  induction 1 as [|i j k Hj Hl IH]; [constructor|]. eapply linked_trans; [exact IH|].
  apply linked_joined, joined_sym. auto.
Qed.
Lemma linked_incl F F' i j : (forall e, In e F -> In e F') -> linked F i j -> linked F' i j.
Proof.
  intros Hi. induction 1 as [|i j k [w Hj] Hl IH]; [constructor|]. econstructor; [|exact IH].
  exists w. destruct Hj; auto.
Qed.

(** Edges of [F] outside of [sl]. *)
Definition outside (sl : list I) F : list (I * W * I) :=
  filter (fun e => negb (proj1_sig (Sumbool.bool_of_sumbool (in_dec I_dec (fst (fst e)) sl))) &&
                   negb (proj1_sig (Sumbool.bool_of_sumbool (in_dec I_dec (snd e) sl)))) F.
Lemma in_outside sl F i w j : In (i, w, j) (outside sl F) <-> In (i, w, j) F /\ ~ In i sl /\ ~ In j sl.
Proof.
  unfold outside. rewrite filter_In. simpl.
  destruct (in_dec I_dec i sl), (in_dec I_dec j sl); simpl; intuition discriminate.
Qed.

(** A connection to [sl] enters [sl] over a last edge. *)
Lemma first_entry sl F y s : linked F y s -> In s sl -> ~ In y sl ->
  exists x z, linked (outside sl F) y x /\ ~ In x sl /\ In z sl /\ joined F x z.
Proof.
  induction 1 as [|i j k Hj Hl IH]; intros Hs Hy; [contradiction|].
  destruct (in_dec I_dec j sl) as [Hin|Hin].
  - exists i, j. split; [constructor|auto].
  - destruct (IH Hs Hin) as (x & z & H1 & H2 & H3 & H4). exists x, z. split; [|auto].
    econstructor; [|exact H1]. destruct Hj as [w Hj]. exists w. rewrite !in_outside. intuition.
Qed.

Definition attached_to (R : I -> Prop) F (sl : list I) : Prop := forall y, R y -> exists s, In s sl /\ linked F y s.

Lemma exchange (R : I -> Prop) sl F v wt : undirected WT E -> (forall i w j, In (i, w, j) F -> E i w j) ->
  attached_to R F sl -> R v -> ~ In v sl ->
  (forall i w j, In i sl -> E i w j -> ~ In j sl -> leb wt w = true) ->
  exists F1 f F2, F = F1 ++ f :: F2 /\ leb wt (edge_weight WT f) = true /\ attached_to R (F1 ++ F2) (v :: sl).
Proof.
  intros Hsym HF Hat Rv Hv Hmin.
  destruct (Hat v Rv) as (s & Hs & Hl).
  destruct (first_entry sl F v s Hl Hs Hv) as (x & z & Hvx & Hx & Hz & [w Hj]).
  assert (Hf : exists f, In f F /\ edge_weight WT f = w /\ (f = (x, w, z) \/ f = (z, w, x))).
  { destruct Hj as [Hj|Hj]; eexists; (split; [exact Hj|]); split; auto. }
  destruct Hf as (f & Hin & Hw & Hor). apply in_split in Hin. destruct Hin as (F1 & F2 & HFeq).
  exists F1, f, F2. split; [auto|]. split.
  { rewrite Hw. apply (Hmin z w x); auto. destruct Hj as [Hj|Hj]; [apply Hsym|]; apply HF; auto. }
  assert (Hrest : forall e, In e F -> e <> f -> In e (F1 ++ F2)).
  { intros e He Hne. rewrite HFeq in He. apply in_app_iff in He. apply in_app_iff. simpl in He.
    destruct He as [He|[He|He]]; auto. congruence. }
  assert (Hout : forall a b, linked (outside sl F) a b -> linked (F1 ++ F2) a b).
  { intros a b. apply linked_incl. intros [[a' w'] b'] He. apply in_outside in He.
    destruct He as (He & Ha & Hb). apply Hrest; auto. intros Hef.
    destruct Hor as [Heq|Heq]; rewrite Heq in Hef; injection Hef as -> -> ->; contradiction. }
  intros y Ry. destruct (in_dec I_dec y sl) as [Hy|Hy].
  { exists y. split; [right; auto|constructor]. }
  destruct (Hat y Ry) as (s' & Hs' & Hl').
  destruct (first_entry sl F y s' Hl' Hs' Hy) as (x' & z' & Hyx & Hx' & Hz' & [w' Hj']).
  assert (Hc : In (x', w', z') (F1 ++ F2) \/ In (z', w', x') (F1 ++ F2) \/ x' = x).
  { assert (Hd : forall e, In e F -> In e (F1 ++ F2) \/ e = f).
    { intros e He. rewrite HFeq in He. apply in_app_iff in He. rewrite in_app_iff. simpl in He.
      destruct He as [He|[He|He]]; auto. }
    destruct Hj' as [Hj'|Hj']; destruct (Hd _ Hj') as [H|H]; auto; right; right;
      destruct Hor as [Heq|Heq]; rewrite Heq in H; injection H as -> -> ->; auto; contradiction. }
  destruct Hc as [Hc|[Hc| ->]].
  - exists z'. split; [right; auto|]. eapply linked_trans; [apply Hout; exact Hyx|]. apply linked_joined. exists w'. auto.
  - exists z'. split; [right; auto|]. eapply linked_trans; [apply Hout; exact Hyx|]. apply linked_joined. exists w'. auto.
  - exists v. split; [left; auto|]. eapply linked_trans; [apply Hout; exact Hyx|]. apply linked_sym, Hout. exact Hvx.
Qed.

(** The way the traversal chooses edges, beginning with the vertices [sl]. *)
Inductive prim : list I -> list (I * W * I) -> Prop :=
| prim_nil sl : prim sl []
| prim_cons sl i w j T : In i sl -> ~ In j sl -> E i w j ->
    (forall i' w' j', In i' sl -> E i' w' j' -> ~ In j' sl -> leb w w' = true) ->
    prim (j :: sl) T -> prim sl ((i, w, j) :: T).

Lemma prim_snoc T : forall sl i w j, prim sl T ->
  (forall k, In k sl \/ In k (map snd T) -> In k (rev (map snd T) ++ sl)) ->
  In i (rev (map snd T) ++ sl) -> ~ In j (rev (map snd T) ++ sl) -> E i w j ->
  (forall i' w' j', In i' (rev (map snd T) ++ sl) -> E i' w' j' -> ~ In j' (rev (map snd T) ++ sl) -> leb w w' = true) ->
  prim sl (T ++ [(i, w, j)]).
Proof.
  induction T as [|[[a wa] b] T IH]; intros sl i w j Hp Hk Hi Hj He Hm.
  - simpl. constructor; auto. constructor.
  - simpl. inversion Hp; subst. constructor; auto. simpl in *. rewrite <- app_assoc in *. simpl in *.
    apply IH; auto. intros k Hin. rewrite in_app_iff, <- in_rev. simpl in *. tauto.
Qed.

Lemma prim_in T : forall sl, prim sl T -> forall i w j, In (i, w, j) T -> E i w j.
Proof.
  induction T as [|e T IH]; intros sl Hp i w j Hin; [contradiction|]. inversion Hp; subst.
  destruct Hin as [Heq|Hin]; [injection Heq as -> -> ->; auto|eauto].
Qed.

(** Each edge set that attaches everything can be exchanged, edge by edge, for the chosen edges. *)
Lemma prim_exchange T : undirected WT E -> forall (R : I -> Prop) sl F, prim sl T ->
  (forall i w j, In (i, w, j) T -> R j) ->
  (forall i w j, In (i, w, j) F -> E i w j) -> attached_to R F sl ->
  exists F' rest, Permutation F (F' ++ rest) /\ Forall2 (fun t f => leb (edge_weight WT t) (edge_weight WT f) = true) T F' /\
    attached_to R rest (rev (map snd T) ++ sl).
Proof.
  intros Hsym. induction T as [|[[i w] j] T IH]; intros R sl F Hp HR HF Hat.
  - exists [], F. split; [auto|]. split; [constructor|auto].
  - inversion Hp; subst.
    destruct (exchange R sl F j w Hsym HF Hat) as (F1 & f & F2 & -> & Hle & Hat2); auto.
    { eapply HR. left. reflexivity. }
    destruct (IH R (j :: sl) (F1 ++ F2)) as (F' & rest & HP & HF2 & Hat3); auto.
    { intros. eapply HR. right. eauto. }
    { intros. eapply HF. rewrite in_app_iff in *. simpl. intuition eauto. }
    exists (f :: F'), rest. split; [|split].
    + rewrite <- Permutation_middle. simpl. constructor. auto.
    + constructor; auto.
    + simpl. rewrite <- app_assoc. exact Hat3.
Qed.

(** The chosen edges connect what they reach with [sl]. *)
Lemma prim_linked T : forall sl, prim sl T -> forall k, In k (rev (map snd T) ++ sl) ->
  exists s, In s sl /\ linked T k s.
Proof.
  induction T as [|[[i w] j] T IH]; intros sl Hp k Hk.
  - exists k. split; [exact Hk|constructor].
  - inversion Hp; subst. simpl in Hk. rewrite <- app_assoc in Hk. simpl in Hk.
    match goal with H : prim (j :: sl) T |- _ => destruct (IH _ H k Hk) as (s & Hs & Hl) end.
    assert (Hl2 : linked ((i, w, j) :: T) k s) by (eapply linked_incl; [|exact Hl]; simpl; auto).
    destruct Hs as [<-|Hs]; [|eauto]. exists i. split; auto. eapply linked_trans; [exact Hl2|].
    apply linked_joined. exists w. simpl. auto.
Qed.

(** *** No cycles *)
(** Merging the new vertex [j] into the vertex [i] it has been attached to. *)
Lemma leaf_linked F i w j a b : (forall x w' y, In (x, w', y) F -> x <> j /\ y <> j) -> i <> j ->
  linked (F ++ [(i, w, j)]) a b ->
  linked F (if I_dec a j then i else a) (if I_dec b j then i else b).
Proof.
  intros HF Hij. induction 1 as [|x y z [w' Hj] Hl IH]; [constructor|].
  eapply linked_trans; [|exact IH].
  assert (Hc : joined F x y /\ x <> j /\ y <> j \/ (x = i /\ y = j) \/ (x = j /\ y = i)).
  { rewrite !in_app_iff in Hj. simpl in Hj.
    destruct Hj as [[Hj|[Hj|[]]]|[Hj|[Hj|[]]]].
    - left. destruct (HF _ _ _ Hj). split; [exists w'; auto|auto].
    - injection Hj as -> -> ->. auto.
    - left. destruct (HF _ _ _ Hj). split; [exists w'; auto|auto].
    - injection Hj as -> -> ->. auto. }
  destruct Hc as [(Hj2 & Hx & Hy)|[[-> ->]|[-> ->]]].
  - destruct (I_dec x j); [contradiction|]. destruct (I_dec y j); [contradiction|]. now apply linked_joined.
  - destruct (I_dec i j); [contradiction|]. destruct (I_dec j j); [constructor|contradiction].
  - destruct (I_dec i j); [contradiction|]. destruct (I_dec j j); [constructor|contradiction].
Qed.

Lemma linked_isolated F j b : (forall x w' y, In (x, w', y) F -> x <> j /\ y <> j) -> linked F b j -> b = j.
Proof.
  intros HF H. apply linked_sym in H. inversion H as [|x y z [w' Hj] Hl]; subst; auto.
  destruct Hj as [Hj|Hj]; destruct (HF _ _ _ Hj); congruence.
Qed.

Definition ends_in (sl : list I) T : Prop := forall x w y, In (x, w, y) T ->
  (In x sl \/ In x (map snd T)).

Lemma prim_snoc_inv T : forall sl i w j, prim sl (T ++ [(i, w, j)]) ->
  prim sl T /\ In i (rev (map snd T) ++ sl) /\ ~ In j (rev (map snd T) ++ sl).
Proof.
  induction T as [|[[a wa] b] T IH]; intros sl i w j Hp.
  - simpl in *. inversion Hp; subst. split; [constructor|auto].
  - simpl in Hp. inversion Hp; subst.
    match goal with H : prim (b :: sl) _ |- _ => destruct (IH _ _ _ _ H) as (K1 & K2 & K3) end.
    split; [constructor; auto|]. simpl. rewrite <- app_assoc. auto.
Qed.

Lemma prim_ends T : forall sl, prim sl T -> forall x w y, In (x, w, y) T ->
  In x (rev (map snd T) ++ sl) /\ In y (rev (map snd T) ++ sl).
Proof.
  induction T as [|e T' IH] using rev_ind; intros sl Hp x w y Hin; [contradiction|]. destruct e as [[i we] j].
  apply prim_snoc_inv in Hp. destruct Hp as (H1 & H2 & H3).
  rewrite map_app, rev_app_distr. simpl. apply in_app_iff in Hin. destruct Hin as [Hin|[Heq|[]]].
  - destruct (IH sl H1 _ _ _ Hin). auto.
  - injection Heq as -> -> ->. auto.
Qed.

Lemma prim_acyclic T : forall sl, prim sl T -> acyclic WT T.
Proof.
  induction T as [|e T' IH] using rev_ind; intros sl Hp F1 a wa b F2 Heq; [destruct F1; discriminate|].
  destruct e as [[i we] j]. assert (HE := prim_ends _ _ Hp). apply prim_snoc_inv in Hp. destruct Hp as (H1 & H2 & H3).
  assert (HT : forall x w y, In (x, w, y) T' -> x <> j /\ y <> j).
  { intros x w y Hin. destruct (prim_ends _ _ H1 _ _ _ Hin). split; congruence. }
  assert (Hij : i <> j) by congruence.
  destruct F2 as [|f F2' _] using rev_ind.
  - apply app_inj_tail in Heq. destruct Heq as [<- Heq]. injection Heq as <- <- <-. rewrite app_nil_r. intros Hl.
    apply linked_isolated in Hl; auto.
  - rewrite app_comm_cons, app_assoc in Heq. apply app_inj_tail in Heq. destruct Heq as [Heq <-].
    rewrite app_assoc. intros Hl. apply leaf_linked in Hl; auto.
    + assert (Hab : a <> j /\ b <> j) by (apply (HT a wa b); rewrite Heq, in_app_iff; simpl; auto).
      destruct (I_dec a j); [tauto|]. destruct (I_dec b j); [tauto|]. apply (IH sl H1 F1 a wa b F2' Heq Hl).
    + intros x w y Hin. apply (HT x w y). rewrite Heq, in_app_iff in *. simpl. intuition.
Qed.

Lemma prim_separated T : forall sl, prim sl T -> forall s s', In s sl -> In s' sl -> linked T s s' -> s = s'.
Proof.
  induction T as [|e T' IH] using rev_ind; intros sl Hp s s' Hs Hs' Hl.
  - inversion Hl as [|x y z [w [[]|[]]]]; auto.
  - destruct e as [[i we] j]. apply prim_snoc_inv in Hp. destruct Hp as (H1 & H2 & H3).
    assert (HT : forall x w y, In (x, w, y) T' -> x <> j /\ y <> j).
    { intros x w y Hin. destruct (prim_ends _ _ H1 _ _ _ Hin). split; congruence. }
    assert (Hij : i <> j) by congruence. apply leaf_linked in Hl; auto.
    assert (Hj : forall k, In k sl -> k <> j) by (intros k Hk ->; apply H3, in_app_iff; auto).
    destruct (I_dec s j) as [He|_]; [destruct (Hj s Hs He)|]. destruct (I_dec s' j) as [He|_]; [destruct (Hj s' Hs' He)|].
    eapply IH; eauto.
Qed.

(** *** Sums *)
Lemma total_perm F F' : exact WT -> Permutation F F' -> total_weight WT F = total_weight WT F'.
Proof.
  intros Hx. induction 1; simpl; auto; try congruence.
  rewrite !(ex_assoc _ Hx). f_equal. apply (ex_comm _ Hx).
Qed.
Lemma total_le T F rest : exact WT -> Forall2 (fun t f => leb (edge_weight WT t) (edge_weight WT f) = true) T F ->
  (forall e, In e rest -> leb (w_zero WT) (edge_weight WT e) = true) ->
  leb (total_weight WT T) (total_weight WT (F ++ rest)) = true.
Proof.
  intros Hx HF Hn. induction HF as [|t f T F Hle HF IH]; simpl.
  - clear -Hn. induction rest as [|e rest IH]; simpl; [apply w_leb_refl|].
    eapply w_leb_trans; [apply IH; intros; apply Hn; right; auto|]. apply w_add_infl. apply Hn. now left.
  - eapply w_leb_trans; [apply w_add_mono; exact IH|].
    rewrite (ex_comm _ Hx (edge_weight WT t)), (ex_comm _ Hx (edge_weight WT f)). now apply w_add_mono.
Qed.
End MSTGraph.
