(** * The proc macros: [#[derive(Allocative)]]
      (allocative_derive/src/derive_allocative.rs) and [#[allocative::root]]
      (allocative_derive/src/root.rs).

    The macros are functions from syntax trees to syntax trees; [syn] and
    [quote] are represented by the trees below.  The meaning of the generated
    code (name resolution, and which visitor calls it makes) is defined in the
    second half.  [None] is a compile error reported by the macro. *)
From Verif Require Import Base KeyModel HMap FlameModel BuilderModel VisitorModel LayoutModel ImplModel.

(** ** Attributes *)

(** Token trees as far as [extract_attrs] looks at them.  [TAngle g] stands for
    a whole generic argument list [<g>] that parses; [TParen] for a parenthesised
    group; string literals carry their value.  Spans are not modelled.
    Models: input of the parsers at derive_allocative.rs 320-346. *)
Inductive tok :=
| TId (s : string)      (* identifier that is not a keyword *)
| TKw (s : string)      (* keyword *)
| TEq | TComma | TPathSep
| TAngle (g : string)
| TParen (g : string)
| TStr (s : string)
| TOther (s : string).

(** [syn::PathSegment]: identifier (keyword or not) and generic arguments; the
    [bool] tells whether they are written with [::].
    Models: [syn::Path], parsed at derive_allocative.rs 336. *)
Record segment := mkSeg { sg_kw : bool; sg_id : string; sg_args : option (bool * string) }.

(** [syn::Path].
    Models: [syn::Path], derive_allocative.rs 304, 336. *)
Record path := mkPath { p_leading : bool; p_segs : list segment }.

(** [syn::Attribute] as far as [extract_attrs] looks at it (derive_allocative.rs 315-320). *)
Inductive meta := MPath | MNameValue | MList (ts : list tok).

(** [syn::Attribute].
    Models: derive_allocative.rs 308, 315-320. *)
Record attr := mkAttr { at_path : path; at_meta : meta }.

(** derive_allocative.rs 300-305 [AllocativeAttrs] (spans dropped). *)
Record aattrs := mkAttrs { aa_skip : bool; aa_bound : option string; aa_visit : option path }.
(** [AllocativeAttrs::default()] (derive_allocative.rs 300, 313). *)
Definition aattrs_default : aattrs := mkAttrs false None None.

(** [attr.path().is_ident(s)] (syn).
    Models: derive_allocative.rs 316. *)
Definition path_is_ident (p : path) (s : string) : bool :=
  match p with
  | mkPath false [mkSeg _ s' None] => String.eqb s' s
  | _ => false
  end.

(** Optional generic arguments of a path segment (syn, [PathSegment::parse_helper]
    in type style).
    Models: derive_allocative.rs 320-348. *)
Definition parse_args (ts : list tok) : option (bool * string) * list tok :=
  match ts with
  | TAngle g :: r => (Some (false, g), r)
  | TPathSep :: TAngle g :: r => (Some (true, g), r)
  | _ => (None, ts)
  end.

(** Helper: a token is one of the given punctuation tokens (for derive_allocative.rs 336). *)
Definition is_one_of (l : list string) (s : string) : bool := existsb (String.eqb s) l.

(** syn [PathSegment::parse_helper].
    Models: derive_allocative.rs 336. *)
Definition parse_segment (ts : list tok) : option (segment * list tok) :=
  match ts with
  | TId s :: r => let '(a, r') := parse_args r in Some (mkSeg false s a, r')
  | TKw s :: r =>
      if is_one_of ["super"; "self"; "crate"; "try"]%string s then Some (mkSeg true s None, r)
      else if String.eqb s "Self" then let '(a, r') := parse_args r in Some (mkSeg true s a, r')
      else None
  | _ => None
  end.

(** syn [Path::parse_rest]; every iteration consumes a token, [fuel] is the
    number of tokens.
    Models: derive_allocative.rs 336. *)
Fixpoint parse_path_rest (fuel : nat) (ts : list tok) : option (list segment * list tok) :=
  match fuel with
  | O => Some ([], ts)
  | S fuel' =>
      match ts with
      | TPathSep :: TParen _ :: _ => Some ([], ts)
      | TPathSep :: r =>
          do x <- parse_segment r;
          do y <- parse_path_rest fuel' (snd x);
          Some (fst x :: fst y, snd y)
      | _ => Some ([], ts)
      end
  end.

(** syn [Path::parse].
    Models: derive_allocative.rs 336. *)
Definition parse_path (ts : list tok) : option (path * list tok) :=
  let '(lead, ts) := match ts with TPathSep :: r => (true, r) | _ => (false, ts) end in
  do x <- parse_segment ts;
  do y <- parse_path_rest (length (snd x)) (snd x);
  Some (mkPath lead (fst x :: fst y), snd y).

(** derive_allocative.rs 322-341: one iteration of the [loop] up to the
    [is_empty] test.  A failing [input.parse::<keyword>()] consumes nothing. *)
Definition parse_item (o : aattrs) (ts : list tok) : option (aattrs * list tok) :=
  match ts with
  | TId "skip" :: r =>
      if aa_skip o then None else Some (mkAttrs true (aa_bound o) (aa_visit o), r)
  | TId "bound" :: r =>
      match r with
      | TEq :: TStr b :: r' =>
          match aa_bound o with
          | Some _ => None
          | None => Some (mkAttrs (aa_skip o) (Some b) (aa_visit o), r')
          end
      | _ => None
      end
  | TId "visit" :: r =>
      match r with
      | TEq :: r1 =>
          do x <- parse_path r1;
          match aa_visit o with
          | Some _ => None
          | None => Some (mkAttrs (aa_skip o) (aa_bound o) (Some (fst x)), snd x)
          end
      | _ => None
      end
  | _ => Some (o, ts)
  end.

(** derive_allocative.rs 321-348: the [loop]; every further iteration consumes
    a comma, [fuel] is more than the number of tokens. *)
Fixpoint parse_items (fuel : nat) (o : aattrs) (ts : list tok) : option aattrs :=
  match fuel with
  | O => None
  | S fuel' =>
      do x <- parse_item o ts;
      match snd x with
      | [] => Some (fst x)
      | TComma :: r => parse_items fuel' (fst x) r
      | _ => None
      end
  end.

(** derive_allocative.rs 308-353 [extract_attrs]; [parse_args_with] rejects
    [#[allocative]] and [#[allocative = ...]]. *)
Fixpoint extract_attrs_from (o : aattrs) (l : list attr) : option aattrs :=
  match l with
  | [] => Some o
  | a :: l' =>
      if path_is_ident (at_path a) "allocative" then
        match at_meta a with
        | MList ts => do o' <- parse_items (S (length ts)) o ts; extract_attrs_from o' l'
        | _ => None
        end
      else extract_attrs_from o l'
  end.

(** derive_allocative.rs 308-353: [extract_attrs]. *)
Definition extract_attrs (l : list attr) : option aattrs := extract_attrs_from aattrs_default l.

(** ** Input of the derive macro ([syn::DeriveInput]) *)

(** [syn::GenericParam]: bounds, defaults and types as text.
    Models: [syn::GenericParam], derive_allocative.rs 66-81. *)
Inductive gparam :=
| GType (name : string) (bounds : list string) (default : option string)
| GLifetime (name : string) (bounds : list string)
| GConst (name : string) (ty : string) (default : option string).

(** [syn::Field]; [fd_name] is the identifier of a named field, unused for tuple fields.
    Models: [syn::Field], derive_allocative.rs 272-276. *)
Record fdecl := mkField { fd_name : string; fd_attrs : list attr; fd_ty : string }.

(** [syn::Fields].
    Models: [syn::Fields], derive_allocative.rs 169-196, 242-268. *)
Inductive fields_decl :=
| FNamed (l : list fdecl)
| FUnnamed (l : list fdecl)
| FUnit.

(** [syn::Variant] (derive_allocative.rs 160-162). *)
Record vdecl := mkVariant { vd_name : string; vd_attrs : list attr; vd_fields : fields_decl }.

(** [syn::Data] (derive_allocative.rs 121-127). *)
Inductive data_decl := DStruct (f : fields_decl) | DEnum (l : list vdecl) | DUnion.

(** [syn::DeriveInput] (derive_allocative.rs 92-94). *)
Record derive_input := mkInput {
  di_name : string;
  di_params : list gparam;
  di_where : option string;
  di_attrs : list attr;
  di_data : data_decl
}.

(** ** Output *)

(** The size argument of [visitor.enter]: [size_of::<Self>()] or [size_of::<ty>()].
    Models: derive_allocative.rs 190, 211, 286. *)
Inductive size_arg := SizeSelf | SizeTy (ty : string).

(** The statements the macro emits.  [LetPattern] is [let Self { names } = self]
    or [let Self(names) = self]; a [Match] arm is [Self::v => {..}], [Self::v(names) => {..}]
    or [Self::v { names } => {..}].
    Models: derive_allocative.rs 105-118, 188-216, 250-266, 283-296. *)
Inductive stmt :=
| LetEnterSelf                                     (* let mut visitor = visitor.enter_self::<Self>(self); *)
| LetPattern (names : list string)
| LetEnter (k : key) (sz : size_arg)               (* let mut visitor = visitor.enter(k, sz); *)
| VisitField (ty : string) (k : key) (x : string)  (* visitor.visit_field::<ty>(k, x); *)
| CallVisit (f : path) (x : string)                (* f(x, &mut visitor); *)
| Exit                                             (* visitor.exit(); *)
| Block (l : list stmt)
| Match (arms : list (string * list string * list stmt)).

(** Generics of the generated impl header.
    Models: derive_allocative.rs 53-87. *)
Inductive gheader := HNone | HParams (l : list gparam) | HText (s : string).

(** The generated [impl] (derive_allocative.rs 105-118). *)
Record derived := mkDerived {
  de_header : gheader;
  de_where : option string;
  de_name : string;
  de_body : list stmt
}.

(** ** The macro *)

(** [collect::<syn::Result<_>>()].
    Models: as the [collect::<syn::Result<_>>] of derive_allocative.rs 134, 187, 208, 249, 262. *)
Fixpoint omap {A B} (f : A -> option B) (l : list A) : option (list B) :=
  match l with
  | [] => Some []
  | a :: l' => do b <- f a; do bs <- omap f l'; Some (b :: bs)
  end.

(** [iter().enumerate()].
    Models: derive_allocative.rs 178, 236, 259. *)
Fixpoint enumerate {A} (i : N) (l : list A) : list (N * A) :=
  match l with [] => [] | a :: l' => (i, a) :: enumerate (i + 1) l' end.

(** derive_allocative.rs 272-298 [gen_visit_field]. *)
Definition gen_visit_field (label : string) (ident : string) (f : fdecl) : option (list stmt) :=
  do at_ <- extract_attrs (fd_attrs f);
  let field_key := derive_key label in
  if aa_skip at_ then Some []
  else match aa_visit at_ with
       | Some v => Some [Block [LetEnter field_key (SizeTy (fd_ty f)); CallVisit v ident; Exit]]
       | None => Some [VisitField (fd_ty f) field_key ident]
       end.

(** derive_allocative.rs 232-239 [fields_unnamed_names]: [f0], [f1], ... *)
Definition unnamed_name (i : N) : string := ("f" ++ show_N i)%string.

(** derive_allocative.rs 220-239: binder names.  [fields_named_names] cannot
    fail here because named fields have identifiers in this syntax tree. *)
Definition binder_names (fs : fields_decl) : list string :=
  match fs with
  | FNamed l => map fd_name l
  | FUnnamed l => map (fun x => unnamed_name (fst x)) (enumerate 0 l)
  | FUnit => []
  end.

(** The [visit_fields] of derive_allocative.rs 175-187, 198-208, 245-249, 257-262:
    one [gen_visit_field] per field, in order; [skip_all] is [variant_attrs.skip]. *)
Definition gen_visit_fields (skip_all : bool) (fs : fields_decl) : option (list stmt) :=
  match fs with
  | FNamed l =>
      do ss <- omap (fun f => if skip_all then Some []
                              else gen_visit_field (fd_name f) (fd_name f) f) l;
      Some (concat ss)
  | FUnnamed l =>
      do ss <- omap (fun x => if skip_all then Some []
                              else gen_visit_field (show_N (fst x)) (unnamed_name (fst x)) (snd x))
                    (enumerate 0 l);
      Some (concat ss)
  | FUnit => Some []
  end.

(** derive_allocative.rs 241-270 [gen_visit_struct]. *)
Definition gen_visit_struct (fs : fields_decl) : option (list stmt) :=
  match fs with
  | FUnit => Some []
  | _ => do body <- gen_visit_fields false fs; Some (LetPattern (binder_names fs) :: body)
  end.

(** derive_allocative.rs 160-218 [gen_visit_enum_variant]. *)
Definition gen_visit_enum_variant (v : vdecl) : option (string * list string * list stmt) :=
  do at_ <- extract_attrs (vd_attrs v);
  let variant_key := derive_key (vd_name v) in
  match vd_fields v with
  | FUnit => Some (vd_name v, [], [])
  | fs =>
      do body <- gen_visit_fields (aa_skip at_) fs;
      Some (vd_name v, binder_names fs, LetEnter variant_key SizeSelf :: body ++ [Exit])
  end.

(** derive_allocative.rs 129-150 [gen_visit_enum]. *)
Definition gen_visit_enum (vs : list vdecl) : option (list stmt) :=
  do arms <- omap gen_visit_enum_variant vs;
  match arms with
  | [] => Some []
  | _ => Some [Match arms]
  end.

(** derive_allocative.rs 121-127 [gen_visit_body]. *)
Definition gen_visit_body (d : data_decl) : option (list stmt) :=
  match d with
  | DStruct fs => gen_visit_struct fs
  | DUnion => None
  | DEnum vs => gen_visit_enum vs
  end.

(** derive_allocative.rs 53-87 [impl_generics]; [lexes] tells whether a string is
    a sequence of Rust tokens ([str::parse::<TokenStream>]). *)
Definition impl_generics (lexes : string -> bool) (ps : list gparam) (at_ : aattrs) : option gheader :=
  match aa_bound at_ with
  | Some (String _ _ as b) => if lexes b then Some (HText b) else None
  | _ =>
      let add := match aa_bound at_ with None => negb (aa_skip at_) | Some _ => false end in
      match map (fun p => match p with
                          | GType n bs _ =>
                              GType n (if add then bs ++ ["allocative::Allocative"%string] else bs) None
                          | GLifetime n bs => GLifetime n bs
                          | GConst n t d => GConst n t d
                          end) ps with
      | [] => Some HNone
      | l => Some (HParams l)
      end
  end.

(** derive_allocative.rs 89-119 [derive_allocative_impl]. *)
Definition derive_allocative_impl (lexes : string -> bool) (i : derive_input) : option derived :=
  do at_ <- extract_attrs (di_attrs i);
  do g <- impl_generics lexes (di_params i) at_;
  do body <- (if aa_skip at_ then Some [] else gen_visit_body (di_data i));
  Some (mkDerived g (di_where i) (di_name i) (LetEnterSelf :: body ++ [Exit])).

(** ** Name resolution in the generated code

    The identifiers come from [quote!] with call-site spans, so they share one
    namespace with the user's identifiers.  A local is either a visitor (with
    its nesting depth; [0] is the [&mut Visitor] parameter) or a field of the
    matched value.
    Models: in the code generated at derive_allocative.rs 105-118, 188-216, 250-266, 283-296. *)
Inductive local := LVisitor (depth : nat) | LField (i : nat).

(** Innermost binding of a name (scoping of the code generated at derive_allocative.rs 105-118, 188-216, 250-266, 283-296). *)
Fixpoint lookup {A} (env : list (string * A)) (x : string) : option A :=
  match env with
  | [] => None
  | (y, a) :: env' => if String.eqb x y then Some a else lookup env' x
  end.

(** Binding a pattern's names to the fields, in order.
    Models: derive_allocative.rs 105-118, 188-216, 250-266, 283-296. *)
Definition bind_fields (names : list string) : list (string * local) :=
  combine names (map LField (seq 0 (length names))).

(** The visitor that [visitor] refers to is usable: it is a visitor and the
    innermost live one (an outer one is mutably borrowed).
    Models: derive_allocative.rs 105-118, 188-216, 250-266, 283-296. *)
Definition visitor_ok (env : list (string * local)) (depth : nat) : bool :=
  match lookup env "visitor" with
  | Some (LVisitor d) => Nat.eqb d depth
  | _ => false
  end.

(** A path used as a function must not resolve to a local variable.
    Models: derive_allocative.rs 105-118, 188-216, 250-266, 283-296. *)
Definition callable (env : list (string * local)) (f : path) : bool :=
  match f with
  | mkPath false [mkSeg _ s _] => match lookup env s with Some _ => false | None => true end
  | _ => true
  end.

(** What the compiler knows about the declaration: types of the fields of the
    struct ([""]) or of a variant; names of constants, statics and unit structs in
    scope (a pattern with such a name is not a binding).
    Models: derive_allocative.rs 105-118, 188-216, 250-266, 283-296. *)
Record decls := mkDecls { dc_types : string -> list string; dc_consts : string -> bool }.

(** Names that cannot be bound by one pattern: a constant, or a name twice.
    Models: patterns of derive_allocative.rs 188-216, 250-266. *)
Fixpoint has_dup (l : list string) : bool :=
  match l with [] => false | x :: l' => existsb (String.eqb x) l' || has_dup l' end.
(** A pattern that binds one name twice: rustc error E0416 (patterns of derive_allocative.rs 188-216, 250-266). *)
Definition bad_pattern (d : decls) (names : list string) : bool := existsb (dc_consts d) names || has_dup names.

(** Does the statement resolve as the macro intends (static check, all arms)?
    Result: environment and number of live visitors afterwards.
    Models: the code generated at derive_allocative.rs 105-118, 188-216, 250-266, 283-296. *)
Fixpoint check (d : decls) (types : list string) (s : stmt) (st : list (string * local) * nat)
  : option (list (string * local) * nat) :=
  let '(env, depth) := st in
  match s with
  | LetEnterSelf | LetEnter _ _ =>
      if visitor_ok env depth then Some (("visitor"%string, LVisitor (S depth)) :: env, S depth) else None
  | LetPattern names =>
      if bad_pattern d names then None else Some (bind_fields names ++ env, depth)
  | VisitField ty _ x =>
      if visitor_ok env depth then
        match lookup env x with
        | Some (LField i) =>
            match nth_error types i with
            | Some ty' => if String.eqb ty ty' then Some st else None
            | None => None
            end
        | _ => None
        end
      else None
  | CallVisit f x =>
      if visitor_ok env depth && callable env f then
        match lookup env x with Some (LField _) => Some st | _ => None end
      else None
  | Exit =>
      if visitor_ok env depth then
        match depth with O => None | S depth' => Some (env, depth') end
      else None
  | Block l =>
      do st' <- (fix go (l : list stmt) (st : list (string * local) * nat) :=
                   match l with
                   | [] => Some st
                   | s :: l' => do st' <- check d types s st; go l' st'
                   end) l st;
      Some (env, Nat.min depth (snd st'))
  | Match arms =>
      (fix go (arms : list (string * list string * list stmt)) (low : nat) :=
         match arms with
         | [] => Some (env, low)
         | (v, names, body) :: arms' =>
             if bad_pattern d names then None else
             do st' <- (fix go (l : list stmt) (st : list (string * local) * nat) :=
                          match l with
                          | [] => Some st
                          | s :: l' => do st' <- check d (dc_types d v) s st; go l' st'
                          end) body (bind_fields names ++ env, depth);
             go arms' (Nat.min low (snd st'))
         end) arms depth
  end.

(** [check] for a block (the code generated at derive_allocative.rs 105-118, 188-216, 250-266, 283-296). *)
Fixpoint check_list (d : decls) (types : list string) (l : list stmt) (st : list (string * local) * nat)
  : option (list (string * local) * nat) :=
  match l with
  | [] => Some st
  | s :: l' => do st' <- check d types s st; check_list d types l' st'
  end.

(** Every name in the generated method resolves as intended.
    Models: derive_allocative.rs 105-118, 188-216, 250-266, 283-296. *)
Definition resolves (d : decls) (body : list stmt) : bool :=
  match check_list d (dc_types d "") body ([("visitor"%string, LVisitor 0)], 0%nat) with
  | Some _ => true
  | None => false
  end.

(** ** Running the generated code *)

(** The value the method is called on: name and [size_of_val] of [Self], the
    active variant (enums), the values of the fields of the struct or active
    variant, [size_of] of types, and what the user's functions do.
    Models: derive_allocative.rs 105-118, 188-216, 250-266, 283-296. *)
Record subject := mkSubject {
  sj_type : tinfo;
  sj_variant : string;
  sj_fields : list sub;
  sj_size : string -> N;
  sj_custom : path -> nat -> vprog
}.

(** Running state: locals, scopes opened by the method (innermost first) with
    what was done in them so far, and what was done outside of them.
    Models: derive_allocative.rs 105-118, 188-216, 250-266, 283-296. *)
Record rstate := mkR { rs_env : list (string * local); rs_open : list (key * N * vprog); rs_done : vprog }.

(** One call on a visitor (the code generated at derive_allocative.rs 105-118, 188-216, 250-266, 283-296). *)
Definition r_emit (p : vprog) (r : rstate) : rstate :=
  match rs_open r with
  | [] => mkR (rs_env r) [] (vseq (rs_done r) p)
  | (k, s, q) :: o => mkR (rs_env r) ((k, s, vseq q p) :: o) (rs_done r)
  end.

(** [let mut visitor = visitor.enter_...] (the code generated at derive_allocative.rs 105-118, 188-216, 250-266, 283-296). *)
Definition r_open (k : key) (s : N) (r : rstate) : rstate :=
  mkR (("visitor"%string, LVisitor (S (length (rs_open r)))) :: rs_env r) ((k, s, VRet) :: rs_open r) (rs_done r).

(** [exit] or drop of the innermost visitor.
    Models: derive_allocative.rs 105-118, 188-216, 250-266, 283-296. *)
Definition r_close (r : rstate) : rstate :=
  match rs_open r with
  | [] => r
  | (k, s, q) :: o => r_emit (VInline k s q VRet) (mkR (rs_env r) o (rs_done r))
  end.

(** End of a block: visitors declared in it are dropped, names forgotten.
    Models: derive_allocative.rs 105-118, 188-216, 250-266, 283-296. *)
Definition r_leave (r0 r : rstate) : rstate :=
  let r' := Nat.iter (length (rs_open r) - length (rs_open r0)) r_close r in
  mkR (rs_env r0) (rs_open r') (rs_done r').

(** One statement; [None] if a name does not resolve to what the macro means.
    Models: the code generated at derive_allocative.rs 105-118, 188-216, 250-266, 283-296. *)
Fixpoint exec (j : subject) (s : stmt) (r : rstate) : option rstate :=
  match s with
  | LetEnterSelf =>
      if visitor_ok (rs_env r) (length (rs_open r)) then
        Some (r_open (key_for_type_name (t_name (sj_type j))) (t_size (sj_type j)) r)
      else None
  | LetEnter k sz =>
      if visitor_ok (rs_env r) (length (rs_open r)) then
        Some (r_open k (match sz with SizeSelf => t_size (sj_type j) | SizeTy ty => sj_size j ty end) r)
      else None
  | LetPattern names => Some (mkR (bind_fields names ++ rs_env r) (rs_open r) (rs_done r))
  | VisitField _ k x =>
      if visitor_ok (rs_env r) (length (rs_open r)) then
        match lookup (rs_env r) x with
        | Some (LField i) => do c <- nth_error (sj_fields j) i; Some (r_emit (field k c) r)
        | _ => None
        end
      else None
  | CallVisit f x =>
      if visitor_ok (rs_env r) (length (rs_open r)) && callable (rs_env r) f then
        match lookup (rs_env r) x with
        | Some (LField i) => Some (r_emit (sj_custom j f i) r)
        | _ => None
        end
      else None
  | Exit =>
      if visitor_ok (rs_env r) (length (rs_open r)) then
        match rs_open r with [] => None | _ => Some (r_close r) end
      else None
  | Block l =>
      do r' <- (fix go (l : list stmt) (r : rstate) :=
                  match l with
                  | [] => Some r
                  | s :: l' => do r' <- exec j s r; go l' r'
                  end) l r;
      Some (r_leave r r')
  | Match arms =>
      (fix find (arms : list (string * list string * list stmt)) :=
         match arms with
         | [] => None
         | (v, names, body) :: arms' =>
             if String.eqb v (sj_variant j) then
               do r' <- (fix go (l : list stmt) (r : rstate) :=
                           match l with
                           | [] => Some r
                           | s :: l' => do r' <- exec j s r; go l' r'
                           end) body (mkR (bind_fields names ++ rs_env r) (rs_open r) (rs_done r));
               Some (r_leave r r')
             else find arms'
         end) arms
  end.

(** [exec] for a block (the code generated at derive_allocative.rs 105-118, 188-216, 250-266, 283-296). *)
Fixpoint exec_list (j : subject) (l : list stmt) (r : rstate) : option rstate :=
  match l with
  | [] => Some r
  | s :: l' => do r' <- exec j s r; exec_list j l' r'
  end.

(** The whole generated method (derive_allocative.rs 105-118): the visit program
    it amounts to. *)
Definition run_derived (j : subject) (body : list stmt) : option vprog :=
  let r0 := mkR [("visitor"%string, LVisitor 0)] [] VRet in
  do r <- exec_list j body r0; Some (rs_done (r_leave r0 r)).

(** ** [#[allocative::root]] (root.rs) *)

(** Identifier characters.  Simplification: only ASCII; bytes from 128 are taken
    to be identifier characters without upper case.
    Models: root.rs 28. *)
Definition lower_char (c : ascii) : ascii :=
  let n := N_of_ascii c in
  if (65 <=? n) && (n <=? 90) then ascii_of_N (n + 32) else c.

(** [str::to_lowercase], ASCII (root.rs 28). *)
Fixpoint to_lowercase (s : string) : string :=
  match s with EmptyString => EmptyString | String c s' => String (lower_char c) (to_lowercase s') end.

(** Characters accepted by [syn::Ident::new] (root.rs 27-30). *)
Definition ident_char (c : ascii) : bool :=
  let n := N_of_ascii c in
  ((97 <=? n) && (n <=? 122)) || ((65 <=? n) && (n <=? 90)) || ((48 <=? n) && (n <=? 57))
  || (n =? 95) || (128 <=? n).

(** Every character of a string (for root.rs 27-30). *)
Fixpoint all_chars (f : ascii -> bool) (s : string) : bool :=
  match s with EmptyString => true | String c s' => f c && all_chars f s' end.

(** [syn::Ident::new] panics unless the text is an identifier; the text here
    always starts with an underscore and is not a keyword.
    Models: root.rs 27-30. *)
Definition ident_new (s : string) : option string := if all_chars ident_char s then Some s else None.

(** What [#[allocative::root]] leaves in the crate.
    Models: root.rs 32-39. *)
Inductive item :=
| IStatic (name : string) (tokens : string)        (* the annotated item, unchanged *)
| ICtorRegister (fn_name : string) (target : string).
    (* #[ctor] fn fn_name() { allocative::register_root(&target); } *)

(** root.rs 21-40 [global_root_impl]; [name] is [ident.to_string()] (with [r#]
    for a raw identifier). *)
Definition global_root_impl (name tokens : string) : option (list item) :=
  do register_name <- ident_new ("_" ++ to_lowercase name ++ "_register_root")%string;
  Some [IStatic name tokens; ICtorRegister register_name name].
