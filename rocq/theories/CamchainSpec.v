(** Specification vocabulary for the camera chain (C26, C27). *)
From Coq Require Sorted.
From Verif Require Import Base.
From stdpp Require Import gmap list.
From Verif Require Import GeomModel GeomSpec CamchainModel.
Local Open Scope Z_scope.

(** the extrinsic stored for the pair (i, j) *)
Definition stored (c : camchain) (i j : Z) : option mat4 :=
  match exts c !! i with Some m => m !! j | None => None end.
(** a history of insert calls on an empty chain *)
Definition inserts (h : list (Z * Z * mat4)) : camchain :=
  fold_left (fun c x => insert_ext c (fst (fst x)) (snd (fst x)) (snd x)) h chain_empty.
(** the extrinsic the first insert for the unordered pair {i, j} determines *)
Fixpoint first_insert (h : list (Z * Z * mat4)) (i j : Z) : option mat4 :=
  match h with
  | [] => None
  | ((a, b), T) :: h' =>
      if (a =? i) && (b =? j) then Some T
      else if (a =? j) && (b =? i) then Some (tf_inv T)
      else first_insert h' i j
  end.
(** camera data is a std::map of std::maps: camera indices distinct and ascending *)
Definition ascending (vs : list (Z * view)) : Prop :=
  Sorted.StronglySorted (fun a b => fst a < fst b) vs.
(** camera [i] sees the target well enough in [vs] *)
Definition sees (vs : list (Z * view)) (i : Z) (v : view) : Prop :=
  In (i, v) vs /\ (detected v = true \/ 12 <= nb_detections v).
(** [i] and [j] both see the target in [vs], and no camera with a smaller index than [i] does *)
Definition linked (vs : list (Z * view)) (i j : Z) (vi vj : view) : Prop :=
  sees vs i vi /\ sees vs j vj /\ i < j /\ forall k v, sees vs k v -> i <= k.
(** some camera time links the two cameras, in either order *)
Definition linked_somewhere (d : cam_data) (i j : Z) : Prop :=
  exists ts vs vi vj, In (ts, vs) d /\ (linked vs i j vi vj \/ linked vs j i vi vj).
(** [i] and [j] are connected through a chain of simultaneous views *)
Inductive connected (d : cam_data) : Z -> Z -> Prop :=
| conn_here : forall ts vs i j vi vj, In (ts, vs) d -> sees vs i vi -> sees vs j vj -> connected d i j
| conn_trans : forall i j k, connected d i j -> connected d j k -> connected d i k.
