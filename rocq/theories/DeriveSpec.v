(** * Specification vocabulary for the proc macros. *)
From Verif Require Import Base KeyModel HMap FlameModel BuilderModel VisitorModel LayoutModel ImplModel DeriveModel.

(** ** The attribute grammar

    [#[allocative(item, ..., item)]] where an item is empty, [skip],
    [bound = "..."] or [visit = path]. *)
Inductive aitem := INothing | ISkip | IBound (b : string) | IVisit (p : path).

Definition segment_ok (s : segment) : Prop :=
  sg_kw s = false
  \/ sg_kw s = true /\ sg_id s = "Self"%string
  \/ sg_kw s = true /\ In (sg_id s) ["super"; "self"; "crate"; "try"]%string /\ sg_args s = None.

Definition path_ok (p : path) : Prop := p_segs p <> [] /\ Forall segment_ok (p_segs p).

Definition item_ok (i : aitem) : Prop := match i with IVisit p => path_ok p | _ => True end.

Definition show_segment (s : segment) : list tok :=
  (if sg_kw s then TKw (sg_id s) else TId (sg_id s))
  :: match sg_args s with
     | None => []
     | Some (false, g) => [TAngle g]
     | Some (true, g) => [TPathSep; TAngle g]
     end.

(** Lists of token sequences with a separator token between them. *)
Fixpoint separated (sep : tok) (l : list (list tok)) : list tok :=
  match l with
  | [] => []
  | [x] => x
  | x :: l' => x ++ sep :: separated sep l'
  end.

Definition show_path (p : path) : list tok :=
  (if p_leading p then [TPathSep] else []) ++ separated TPathSep (map show_segment (p_segs p)).

Definition show_item (i : aitem) : list tok :=
  match i with
  | INothing => []
  | ISkip => [TId "skip"]
  | IBound b => [TId "bound"; TEq; TStr b]
  | IVisit p => TId "visit" :: TEq :: show_path p
  end.

(** [allocative], as a path of one identifier. *)
Definition names_allocative (p : path) : Prop :=
  exists kw, p = mkPath false [mkSeg kw "allocative" None].

(** The items written in one attribute; other attributes contribute nothing. *)
Definition attr_items (a : attr) (its : list aitem) : Prop :=
  (~ names_allocative (at_path a) /\ its = [])
  \/ (names_allocative (at_path a) /\ its <> [] /\ Forall item_ok its
      /\ at_meta a = MList (separated TComma (map show_item its))).

Definition is_skip (i : aitem) : bool := match i with ISkip => true | _ => false end.
Definition is_bound (i : aitem) : bool := match i with IBound _ => true | _ => false end.
Definition is_visit (i : aitem) : bool := match i with IVisit _ => true | _ => false end.

Definition at_most_one (f : aitem -> bool) (its : list aitem) : Prop := (length (filter f its) <= 1)%nat.

(** [o] reports exactly the items [its], none of which occurs twice. *)
Definition reports (o : aattrs) (its : list aitem) : Prop :=
  at_most_one is_skip its /\ at_most_one is_bound its /\ at_most_one is_visit its /\
  (aa_skip o = true <-> In ISkip its) /\
  (forall b, aa_bound o = Some b <-> In (IBound b) its) /\
  (forall p, aa_visit o = Some p <-> In (IVisit p) its).

(** The attributes [l] of one item of the program say [o]. *)
Definition attrs_say (l : list attr) (o : aattrs) : Prop :=
  exists itss, Forall2 attr_items l itss /\ reports o (concat itss).

(** ** What a derived implementation is supposed to do *)

(** One scope of the visitor. *)
Definition scope (name : string) (size : N) (body : vprog) : vprog := VInline (key_new name) size body VRet.

(** The fields with their labels: the name, or the index of a tuple field. *)
Definition labelled (fs : fields_decl) : list (string * fdecl) :=
  match fs with
  | FNamed l => map (fun f => (fd_name f, f)) l
  | FUnnamed l => combine (map (fun i => show_N (N.of_nat i)) (seq 0 (length l))) l
  | FUnit => []
  end.

(** What is recorded for field number [i] with label [name]: nothing if skipped,
    otherwise one scope; a custom function gets the field and the declared size
    of its type, else the field's own [visit] is used with [size_of_val]. *)
Definition field_scopes (j : subject) (i : nat) (x : string * fdecl) (o : aattrs) (c : sub) : list vprog :=
  if aa_skip o then []
  else match aa_visit o with
       | Some v => [scope (fst x) (sj_size j (fd_ty (snd x))) (sj_custom j v i)]
       | None => [scope (fst x) (fst c) (snd c)]
       end.

(** All fields, in declaration order. *)
Fixpoint fields_scopes (j : subject) (i : nat) (xs : list (string * fdecl)) (os : list aattrs) (cs : list sub)
  : list vprog :=
  match xs, os, cs with
  | x :: xs', o :: os', c :: cs' => field_scopes j i x o c ++ fields_scopes j (S i) xs' os' cs'
  | _, _, _ => []
  end.

Definition struct_visit (j : subject) (fs : fields_decl) (os : list aattrs) : vprog :=
  scope (t_name (sj_type j)) (t_size (sj_type j)) (vseqs (fields_scopes j 0 (labelled fs) os (sj_fields j))).

(** A value of an enum: the type's scope, inside it (non-unit variants) the
    variant's scope of the same size, inside it the fields. *)
Definition variant_visit (j : subject) (v : vdecl) (skip : bool) (os : list aattrs) : vprog :=
  scope (t_name (sj_type j)) (t_size (sj_type j))
    match vd_fields v with
    | FUnit => VRet
    | fs => scope (vd_name v) (t_size (sj_type j))
              (if skip then VRet else vseqs (fields_scopes j 0 (labelled fs) os (sj_fields j)))
    end.

Definition field_list (fs : fields_decl) : list fdecl :=
  match fs with FNamed l | FUnnamed l => l | FUnit => [] end.

(** The attributes of all fields are well formed and say [os]. *)
Definition field_attrs (fs : fields_decl) (os : list aattrs) : Prop :=
  Forall2 (fun f o => attrs_say (fd_attrs f) o) (field_list fs) os.

(** ** Names *)

(** The locals introduced by destructuring: field names, or [f0], [f1], ... *)
Definition binds (fs : fields_decl) (x : string) : Prop :=
  match fs with
  | FNamed l => In x (map fd_name l)
  | FUnnamed l => exists i, (i < length l)%nat /\ x = ("f" ++ show_N (N.of_nat i))%string
  | FUnit => False
  end.

(** rustc rejects declarations with repeated field names. *)
Definition distinct_fields (fs : fields_decl) : Prop :=
  match fs with FNamed l => NoDup (map fd_name l) | _ => True end.

(** [f] is a plain identifier [x]. *)
Definition plain_ident (f : path) (x : string) : Prop :=
  exists kw args, f = mkPath false [mkSeg kw x args].

(** The names of a struct or variant do not interfere with the generated code:
    no field is called [visitor], no custom function is called like a local
    variable, no constant in scope is called like a local variable. *)
Record hygienic (consts : string -> bool) (fs : fields_decl) (os : list aattrs) : Prop := {
  hy_visitor : ~ binds fs "visitor";
  hy_consts : forall x, binds fs x -> consts x = false;
  hy_custom : forall o f x, In o os -> aa_skip o = false -> aa_visit o = Some f -> plain_ident f x ->
              x <> "visitor"%string /\ ~ binds fs x
}.

(** ** The impl header *)

(** A parameter of the type and the corresponding parameter of the impl. *)
Inductive impl_param (bounded : bool) : gparam -> gparam -> Prop :=
| ip_type n bs d : impl_param bounded (GType n bs d)
                     (GType n (bs ++ if bounded then ["allocative::Allocative"%string] else []) None)
| ip_lifetime n bs : impl_param bounded (GLifetime n bs) (GLifetime n bs)
| ip_const n t d : impl_param bounded (GConst n t d) (GConst n t d).

Definition header_params (h : gheader) : option (list gparam) :=
  match h with HNone => Some [] | HParams l => Some l | HText _ => None end.

(** Rust does not allow defaults in the parameters of an impl, nor the lifetimes
    the generated method declares to be declared a second time. *)
Definition param_legal (p : gparam) : Prop :=
  match p with
  | GType _ _ d | GConst _ _ d => d = None
  | GLifetime n _ => n <> "'allocative_a"%string /\ n <> "'allocative_b"%string
  end.

Definition const_default (p : gparam) : Prop :=
  match p with GConst _ _ (Some _) => True | _ => False end.
Definition clashing_lifetime (p : gparam) : Prop :=
  match p with GLifetime n _ => n = "'allocative_a"%string \/ n = "'allocative_b"%string | _ => False end.

(** ** Whole declarations *)

(** Attributes of a variant; those of the fields matter only if it is not skipped. *)
Definition variant_attrs (v : vdecl) (a : aattrs * list aattrs) : Prop :=
  attrs_say (vd_attrs v) (fst a) /\ (aa_skip (fst a) = false -> field_attrs (vd_fields v) (snd a)).

Definition hygienic_variant (consts : string -> bool) (v : vdecl) (a : aattrs * list aattrs) : Prop :=
  hygienic consts (vd_fields v) (if aa_skip (fst a) then [] else snd a).

(** The declarations for which the macro produces code. *)
Definition supported (lexes : string -> bool) (i : derive_input) : Prop :=
  exists o, attrs_say (di_attrs i) o
  /\ (forall b, aa_bound o = Some b -> b <> ""%string -> lexes b = true)
  /\ (aa_skip o = true
      \/ match di_data i with
         | DStruct fs => exists os, field_attrs fs os
         | DEnum vs => exists l, Forall2 variant_attrs vs l
         | DUnion => False
         end).

(** The types of the fields, as declared. *)
Definition declared_types (i : derive_input) (d : decls) : Prop :=
  match di_data i with
  | DStruct fs => dc_types d "" = map fd_ty (field_list fs)
  | DEnum vs => forall v, In v vs -> dc_types d (vd_name v) = map fd_ty (field_list (vd_fields v))
  | DUnion => True
  end.

(** ** [#[allocative::root]] *)

(** Letters up to case. *)
Definition same_letter (a b : ascii) : Prop :=
  a = b \/ exists n, (65 <= n <= 90) /\ ((a = ascii_of_N n /\ b = ascii_of_N (n + 32)) \/
                                         (b = ascii_of_N n /\ a = ascii_of_N (n + 32))).

(** Equal up to upper and lower case of ASCII letters. *)
Fixpoint same_ignoring_case (a b : string) : Prop :=
  match a, b with
  | EmptyString, EmptyString => True
  | String x a', String y b' => same_letter x y /\ same_ignoring_case a' b'
  | _, _ => False
  end.

(** An identifier that is not raw: letters, digits, underscores, non-ASCII bytes. *)
Definition plain_char (c : ascii) : Prop :=
  In c (list_ascii_of_string "abcdefghijklmnopqrstuvwxyzABCDEFGHIJKLMNOPQRSTUVWXYZ0123456789_") \/ 128 <= N_of_ascii c.
Definition plain_name (s : string) : Prop := forall c, In c (list_ascii_of_string s) -> plain_char c.

(** The names an item defines in the value namespace. *)
Definition defined_names (l : list item) : list string :=
  map (fun i => match i with IStatic n _ => n | ICtorRegister f _ => f end) l.

(** The targets of the registration functions. *)
Definition ctor_targets (l : list item) : list string :=
  flat_map (fun i => match i with ICtorRegister _ t => [t] | _ => [] end) l.
