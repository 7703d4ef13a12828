(** * Which frame names belong to owned allocations.

    The flame graph identifies a scope by the names on the way to it.  This file
    says, on values and without looking at visits, when names keep the
    allocations apart: the name of a type that owns heap memory (a [Box], a
    [Vec], ...) is not also the name of something else. *)
From Verif Require Import Base KeyModel LayoutModel ImplModel.

(** The names under which a node of this shape records memory it owns, directly
    below its own type name ([Box], [Vec], ...: "ptr"; the tables of [IndexSet]
    and [IndexMap]: "data" and "raw_table"; ...). *)
Definition owned_labels (s : shape) : list string :=
  match s with
  | SBox _ _ | SVec _ _ _ | SVecDeque _ _ _ _ | SString _ _ _ | SPathBuf _ _ _ | SCompactString _ _ | SSlab _ _ _
  | SSmallVec _ _ _ | SBigInt _ _ | SDashMap _ _ _ | SDashSet _ _ _ | SBump _ _ _ => ["ptr"%string]
  | SIndexSet _ _ _ | SIndexMap _ _ _ => ["data"%string; "raw_table"%string]
  | SJsonMap _ | SHashTable _ _ _ => ["data"%string]
  | _ => []
  end.

(** A table of the owning types of a program: [owns T k] means that [T] is the
    name of a type recording owned memory under [k]. *)
Definition table := string -> string -> Prop.

(** [n] is not the name of an owning type. *)
Definition plain_name (owns : table) (n : string) : Prop := forall k, ~ owns n k.

(** The fixed labels used by the crate around contained values. *)
Definition fixed_labels : list string :=
  ["ptr"; "data"; "inner"; "capacity"; "key"; "value"; "raw_table"; "ArcInner"; "RcInner";
   "allocative::impls::triomphe::ArcInnerRepr"]%string.

(** The names one node uses agree with the table: its type owns exactly what the
    table says, and field names, variant names and the type of an upgraded weak
    pointer are not names of owning types.  A slice or array is recorded under
    the name of its {e element} type with the elements under "data", which must
    not be where the element type keeps its own memory. *)
Definition node_named (owns : table) (s : shape) : Prop :=
  match shape_info s with
  | Some t => forall k, owns (t_name t) k <-> In k (owned_labels s)
  | None => True
  end /\
  match s with
  | SSlice e => ~ owns (t_name e) "data"%string
  | SStruct _ names => Forall (plain_name owns) names
  | SEnum _ (Some (variant, names)) => plain_name owns variant /\ Forall (plain_name owns) names
  | SWeak _ (Some (t, _, _)) => plain_name owns (t_name t)
  | _ => True
  end.

Inductive named (owns : table) : value -> Prop :=
| named_node s cs : node_named owns s -> Forall (named owns) cs -> named owns (Node s cs).

Definition inner_named (owns : table) (i : inner) : Prop :=
  match i with InThin tn _ _ _ _ => plain_name owns tn | _ => True end.

Definition named_store (owns : table) (h : store) : Prop :=
  Forall (fun xo => inner_named owns (fst (snd xo)) /\ named owns (snd (snd xo))) h.

(** Distinct things have distinct names, as far as needed for accounting. *)
Definition names_apart (h : store) (roots : list value) : Prop :=
  exists owns : table, Forall (plain_name owns) fixed_labels /\ named_store owns h /\ Forall (named owns) roots.
