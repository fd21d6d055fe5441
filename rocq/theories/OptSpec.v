(** Specification for C101: what a report shows besides paths. *)
From Coq Require Import List ZArith.
From Verif Require Import Machine Common GearSpec Weight BFSModel NTDModel TopoModel DijkstraModel AStarModel MSTModel.

Definition bfs_seen {V I L} {VS : VSet I} {PM : PMap I V} {LM : PMap I L} (rep : @bfs_report V I L VS PM LM) := (br_vertex rep, br_depth rep, br_visited rep).
Definition ntd_seen {V I L} {VS : VSet I} {PM : PMap I V} {LM : PMap I L} (rep : @ntd_report V I L VS PM LM) := (nr_vertex rep, nr_depth rep, nr_visited rep).
Definition topo_seen {V I L} {VS : VSet I} {PM : PMap I V} {LM : PMap I L} (rep : @topo_report V I L VS PM LM) := (tr_vertex rep, tr_depth rep, tr_visited rep).
Definition dij_seen {V I L} {WT : Weights} {DM : DMap I (w_t WT) (w_inf WT)} {PM : PMap I V} {LM : PMap I L} (rep : @dij_report V I L WT DM PM LM) :=
  (dr_vertex rep, dr_distance rep, dr_depth rep).
Definition ast_seen {V I L} {WT : Weights} {DM : DMap I (w_t WT) (w_inf WT)} {PM : PMap I V} {LM : PMap I L} (rep : @ast_report V I L WT DM PM LM) :=
  (ar_vertex rep, ar_path_length rep, ar_depth rep).
Definition mst_seen {V I L} {WT : Weights} {PM : PMap I V} {LM : PMap I L} (rep : @mst_report V I L WT PM LM) := (mr_vertex rep, mr_edge rep).

(** Distances known before the traversal are not negative, and if there are such distances, each start vertex is given only once. *)
Definition knows_nonneg {V I} (vid : V -> I) (WT : Weights) (DM : DMap I (w_t WT) (w_inf WT)) (starts : list V) (known : option (dm_t DM)) : Prop :=
  match known with None => True | Some m => (forall i, w_leb WT (w_zero WT) (dm_get DM i m) = true) /\ NoDup (map vid starts) end.
