(** * Conformance: the repository's own unit tests, run on the model.

    These are tests, not proofs: every literal expectation of the unit tests
    and golden files of /repo is reproduced here on the same input, so that a
    slip in the transcription of the code shows up.  Type names and sizes are
    what rustc reports in those tests. *)
From Verif Require Import Base KeyModel HMap FlameModel BuilderModel VisitorModel SizeOfModel Spec
  LayoutModel GlobalModel ImplModel DeriveModel.

Definition text (l : list string) : string := concat_str (map (fun s => (s ++ newline)%string) l).

(** golden.rs 33-36 [make_golden]: [visit_root] and [finish_and_write_flame_graph]. *)
Definition golden (h : store) (v : value) : option string :=
  option_map (fun o => fg_write (out_flamegraph o)) (profile Debug [visit_in Debug (length h) h v]).

(** ** flamegraph.rs 498-637 *)

(** test_empty (the arena and the text). *)
Example test_empty :
  finish_impl Debug (fst (visit_root Debug VRet b_default)) = Some ([td_default], 0%nat) /\
  option_map (observe_output Debug) (profile Debug [VRet]) = Some (""%string, Some 0, ""%string).
Proof. split; vm_compute; reflexivity. Qed.

(** test_simple: the arena with its sizes, and the text. *)
Example test_simple :
  finish_impl Debug (fst (visit_root Debug (v_simple (key_new "a") 10) b_default)) =
    Some ([mkTD 0 (-10)%Z false [(key_new "a", 1%nat)]; mkTD 10 10%Z false []], 0%nat) /\
  option_map (fun o => fg_write (out_flamegraph o)) (profile Debug [v_simple (key_new "a") 10]) = Some (text ["a 10"]%string).
Proof. split; vm_compute; reflexivity. Qed.

(** test_unique *)
Example test_unique :
  option_map (fun o => fg_write (out_flamegraph o)) (profile Debug
    [VInline (key_new "Struct") 10
       (vseq (v_simple (key_new "a") 3) (VUnique (key_new "p") 6 (v_simple (key_new "x") 13) VRet)) VRet]) =
  Some (text ["Struct 1"; "Struct;a 3"; "Struct;p 6"; "Struct;p;x 13"]%string).
Proof. vm_compute. reflexivity. Qed.

(** test_shared *)
Example test_shared :
  let s := VInline (key_new "Struct") 10
             (vseq (v_simple (key_new "a") 3)
                   (VShared (key_new "p") 6 1000 (v_simple (key_new "Shared") 13) VRet VRet)) VRet in
  option_map (fun o => fg_write (out_flamegraph o)) (profile Debug [vseq s s]) =
  Some (text ["Shared 13"; "Struct 2"; "Struct;a 6"; "Struct;p 12"]%string).
Proof. vm_compute. reflexivity. Qed.

(** test_inline_children_too_large *)
Example test_inline_children_too_large :
  option_map (fun o => (fg_write (out_flamegraph o), out_warnings o))
    (profile Debug [VInline (key_new "a") 10 (v_simple (key_new "b") 13) VRet]) =
  Some (text ["a;b 13"]%string,
        text ["Incorrect size declaration for node `a`, size of self: 10, size of inline children: 13"]%string).
Proof. vm_compute. reflexivity. Qed.

(** test_flamegraph_add *)
Example test_flamegraph_add :
  (do b_1 <- fg_add_self Debug fg_default 10;
   do b <- fg_add_child Debug fg_default (key_new "x") b_1;
   do a <- fg_add Debug fg_default b;
   fg_total_size Debug a) = Some 10.
Proof. vm_compute. reflexivity. Qed.

(** ** lib.rs 115-118, key.rs *)
Example test_ident_key : derive_key "foo" = key_new "foo" /\ k_hash (key_new "foo") = 0xdcb27518fed9d577.
Proof. split; vm_compute; reflexivity. Qed.

(** ** Golden files *)
Definition u8_t : tinfo := mkT "u8" 1 false.
Definition u32_t : tinfo := mkT "u32" 4 false.
Definition string_t : tinfo := mkT "alloc::string::String" 24 true.
Definition a_string (n : nat) : value := Node (SString string_t n (N.of_nat n)) [].

(** std/cell_test_default.src *)
Definition refcell_t : tinfo := mkT "core::cell::RefCell<alloc::string::String>" 32 true.
Example cell_test_default : golden [] (Node (SCell refcell_t true) [a_string 3]) =
  Some (text ["core::cell::RefCell<alloc::string::String> 8";
              "core::cell::RefCell<alloc::string::String>;data;alloc::string::String 16";
              "core::cell::RefCell<alloc::string::String>;data;alloc::string::String;ptr 8";
              "core::cell::RefCell<alloc::string::String>;data;alloc::string::String;ptr;capacity;u8 3"]%string).
Proof. vm_compute. reflexivity. Qed.

(** std/cell_test_borrowed.src *)
Example cell_test_borrowed : golden [] (Node (SCell refcell_t false) [a_string 3]) =
  Some (text ["core::cell::RefCell<alloc::string::String> 32"]%string).
Proof. vm_compute. reflexivity. Qed.

(** std/cell_test_once_cell.src *)
Example cell_test_once_cell :
  golden [] (Node (SCell (mkT "core::cell::once::OnceCell<alloc::string::String>" 24 true) true) [a_string 3]) =
  Some (text ["core::cell::once::OnceCell<alloc::string::String>;data;alloc::string::String 16";
              "core::cell::once::OnceCell<alloc::string::String>;data;alloc::string::String;ptr 8";
              "core::cell::once::OnceCell<alloc::string::String>;data;alloc::string::String;ptr;capacity;u8 3"]%string).
Proof. vm_compute. reflexivity. Qed.

(** compact_str_test_inline.src, compact_str_test_heap.src *)
Definition compact_t : tinfo := mkT "compact_str::CompactString" 24 true.
Example compact_str_test_inline : golden [] (Node (SCompactString compact_t None) []) =
  Some (text ["compact_str::CompactString 24"]%string).
Proof. vm_compute. reflexivity. Qed.
Example compact_str_test_heap : golden [] (Node (SCompactString compact_t (Some (300, 300))) []) =
  Some (text ["compact_str::CompactString 16"; "compact_str::CompactString;ptr 8"; "compact_str::CompactString;ptr;str 300"]%string).
Proof. vm_compute. reflexivity. Qed.

(** either_test_golden.src *)
Example either_test_golden :
  golden [] (Node (SStruct (mkT "either::Either<u32, alloc::string::String>" 24 true) ["Left"%string]) [Node (SLeaf u32_t) []]) =
  Some (text ["either::Either<u32, alloc::string::String> 20"; "either::Either<u32, alloc::string::String>;Left;u32 4"]%string).
Proof. vm_compute. reflexivity. Qed.

(** hashbrown_test_hash_table.src: 100 strings "0" .. "99", capacity 112 (7/8 of
    128 buckets). *)
Definition number_strings : list value := map (fun i => a_string (String.length (show_N (N.of_nat i)))) (seq 0 100).
Example hashbrown_test_hash_table :
  golden [] (Node (SHashTable (mkT "hashbrown::table::HashTable<alloc::string::String>" 32 true) string_t 112) number_strings) =
  Some (text ["hashbrown::table::HashTable<alloc::string::String> 24";
              "hashbrown::table::HashTable<alloc::string::String>;data 8";
              "hashbrown::table::HashTable<alloc::string::String>;data;capacity 800";
              "hashbrown::table::HashTable<alloc::string::String>;data;capacity;alloc::string::String 1600";
              "hashbrown::table::HashTable<alloc::string::String>;data;capacity;alloc::string::String;ptr 800";
              "hashbrown::table::HashTable<alloc::string::String>;data;capacity;alloc::string::String;ptr;capacity;u8 190"]%string).
Proof. vm_compute. reflexivity. Qed.

(** triomphe_test_simple.src *)
Definition tarc_t : tinfo := mkT "triomphe::arc::Arc<alloc::string::String>" 8 true.
Example triomphe_test_simple : golden [(5, (InTriomphe 8, a_string 3))] (Node (SShared tarc_t 8 5) []) =
  Some (text ["allocative::impls::triomphe::ArcInnerRepr 8";
              "allocative::impls::triomphe::ArcInnerRepr;data;alloc::string::String 16";
              "allocative::impls::triomphe::ArcInnerRepr;data;alloc::string::String;ptr 8";
              "allocative::impls::triomphe::ArcInnerRepr;data;alloc::string::String;ptr;capacity;u8 3";
              "triomphe::arc::Arc<alloc::string::String>;ptr 8"]%string).
Proof. vm_compute. reflexivity. Qed.

(** triomphe_test_shared.src *)
Example triomphe_test_shared :
  let arc := Node (SShared tarc_t 8 5) [] in
  golden [(5, (InTriomphe 8, a_string 100))]
    (Node (SVec (mkT "alloc::vec::Vec<triomphe::arc::Arc<alloc::string::String>>" 24 true) tarc_t 3) [arc; arc; arc]) =
  Some (text ["alloc::vec::Vec<triomphe::arc::Arc<alloc::string::String>> 16";
              "alloc::vec::Vec<triomphe::arc::Arc<alloc::string::String>>;ptr 8";
              "alloc::vec::Vec<triomphe::arc::Arc<alloc::string::String>>;ptr;triomphe::arc::Arc<alloc::string::String>;ptr 24";
              "allocative::impls::triomphe::ArcInnerRepr 8";
              "allocative::impls::triomphe::ArcInnerRepr;data;alloc::string::String 16";
              "allocative::impls::triomphe::ArcInnerRepr;data;alloc::string::String;ptr 8";
              "allocative::impls::triomphe::ArcInnerRepr;data;alloc::string::String;ptr;capacity;u8 100"]%string).
Proof. vm_compute. reflexivity. Qed.

(** triomphe_test_align.src *)
Example triomphe_test_align :
  golden [(5, (InTriomphe 1, Node (SLeaf u8_t) []))] (Node (SShared (mkT "triomphe::arc::Arc<u8>" 8 true) 8 5) []) =
  Some (text ["allocative::impls::triomphe::ArcInnerRepr 15";
              "allocative::impls::triomphe::ArcInnerRepr;data;u8 1";
              "triomphe::arc::Arc<u8>;ptr 8"]%string).
Proof. vm_compute. reflexivity. Qed.

(** ** Derived implementations

    [derived_visit i j]: run the macro on the declaration [i], then the
    generated method on the value [j]. *)
Definition derived_visit (i : derive_input) (j : subject) : option vprog :=
  do d <- derive_allocative_impl (fun _ => true) i; run_derived j (de_body d).

Definition no_custom (_ : DeriveModel.path) (_ : nat) : vprog := VRet.
Definition sub_of (v : value) : sub := (size_of_val v, visit Debug (fun _ => VCrash) v).

(** std/sync_test_arc_align.src: [struct CacheLine(u8)] with [repr(align(64))]
    (another attribute, ignored by the macro), in an [Arc]. *)
Definition repr_attr : attr := mkAttr (mkPath false [mkSeg false "repr" None]) (MList [TId "align"; TParen "64"]).
Definition cache_line : derive_input :=
  mkInput "CacheLine" [] None [repr_attr] (DStruct (FUnnamed [mkField "" [] "u8"])).
Definition cache_line_t : tinfo := mkT "allocative::impls::std::sync::tests::CacheLine" 64 false.
Example sync_test_arc_align :
  option_map (fun p => option_map (fun o => fg_write (out_flamegraph o))
    (profile Debug [impl_shared_ptr (fun _ => visit_inner (InArc 64) (64, p))
       (mkT "alloc::sync::Arc<allocative::impls::std::sync::tests::CacheLine>" 8 true) 8 5]))
    (derived_visit cache_line (mkSubject cache_line_t "" [sub_of (Node (SLeaf u8_t) [])] (fun _ => 0) no_custom)) =
  Some (Some (text ["ArcInner 64";
              "ArcInner;allocative::impls::std::sync::tests::CacheLine 63";
              "ArcInner;allocative::impls::std::sync::tests::CacheLine;0;u8 1";
              "alloc::sync::Arc<allocative::impls::std::sync::tests::CacheLine>;ptr 8"]%string)).
Proof. vm_compute. reflexivity. Qed.

(** test_derive/with_flamegraph.rs *)
Definition test_data : derive_input :=
  mkInput "TestData" [] None [] (DStruct (FNamed [mkField "data" [] "Box<[u8]>"; mkField "b" [] "u8"])).
Definition boxed_slice (e : tinfo) (n : nat) : value :=
  Node (SBox (mkT ("alloc::boxed::Box<[" ++ t_name e ++ "]>") 16 true) 16) [Node (SSlice e) (repeat (Node (SLeaf e) []) n)].
Example test_flamegraph :
  option_map (fun p => option_map (fun o => fg_write (out_flamegraph o)) (profile Debug [p]))
    (derived_visit test_data
       (mkSubject (mkT "allocative::test_derive::with_flamegraph::TestData" 24 true) ""
          [sub_of (boxed_slice u8_t 100); sub_of (Node (SLeaf u8_t) [])] (fun _ => 0) no_custom)) =
  Some (Some (text ["allocative::test_derive::with_flamegraph::TestData 7";
                    "allocative::test_derive::with_flamegraph::TestData;b;u8 1";
                    "allocative::test_derive::with_flamegraph::TestData;data;alloc::boxed::Box<[u8]>;ptr 16";
                    "allocative::test_derive::with_flamegraph::TestData;data;alloc::boxed::Box<[u8]>;ptr;u8;data;u8 100"]%string)).
Proof. vm_compute. reflexivity. Qed.

(** size_of.rs 124-140 test_box, 142-163 test_box_slice *)
Definition boxed_decl (ty : string) : derive_input :=
  mkInput "Boxed" [] None [] (DStruct (FNamed [mkField "data" [] ty])).
Definition sizes (size_of_T : N) (p : option vprog) : option (option N * option N) :=
  option_map (fun p => (size_of_unique_allocated_data Debug p, size_of_unique Debug size_of_T p)) p.
Definition box_of (v : value) : value := Node (SBox (mkT "alloc::boxed::Box<_>" 8 true) 8) [v].
Example test_box :
  sizes 8 (derived_visit (boxed_decl "Box<u32>")
    (mkSubject (mkT "Boxed" 8 true) "" [sub_of (box_of (Node (SLeaf u32_t) []))] (fun _ => 0) no_custom)) =
  Some (Some 4, Some 12).
Proof. vm_compute. reflexivity. Qed.
Example test_box_slice :
  sizes 16 (derived_visit (boxed_decl "Box<[u32]>")
    (mkSubject (mkT "Boxed" 16 true) "" [sub_of (boxed_slice u32_t 3)] (fun _ => 0) no_custom)) =
  Some (Some 12, Some 28).
Proof. vm_compute. reflexivity. Qed.

(** size_of.rs 165-196 test_struct_in_box *)
Definition data_decl_ab : derive_input :=
  mkInput "Data" [] None [] (DStruct (FNamed [mkField "a" [] "u8"; mkField "b" [] "Box<u32>"])).
Example test_struct_in_box :
  (do data <- derived_visit data_decl_ab
     (mkSubject (mkT "Data" 16 true) "" [sub_of (Node (SLeaf u8_t) []); sub_of (box_of (Node (SLeaf u32_t) []))] (fun _ => 0) no_custom);
   sizes 8 (derived_visit (boxed_decl "Box<Data>")
     (mkSubject (mkT "Boxed" 8 true) "" [(8, impl_box (mkT "Box<Data>" 8 true) 8 [(16, data)])] (fun _ => 0) no_custom))) =
  Some (Some (16 + 4), Some (8 + 16 + 4)).
Proof. vm_compute. reflexivity. Qed.

(** ** global_root.rs 29-50 *)
Definition global_root_decl : derive_input :=
  mkInput "TestGlobalRoot" [] None [] (DStruct (FNamed [mkField "x" [] "u32"])).
Example test_global_root :
  global_root_impl "TEST_GLOBAL_ROOT" "static TEST_GLOBAL_ROOT" =
    Some [IStatic "TEST_GLOBAL_ROOT" "static TEST_GLOBAL_ROOT";
          ICtorRegister "_test_global_root_register_root" "TEST_GLOBAL_ROOT"] /\
  (do w <- register_root (mkW [] false) 17;
   do r <- visit_global_roots Debug
     (fun _ _ => GInline (key_new "TestGlobalRoot") 4 (GInline (key_new "x") 4 (GInline (key_new "u32") 4 GRet GRet) GRet) GRet) w b_default;
   finish_and_write Debug (fst (snd r))) = Some (text ["TestGlobalRoot;x;u32 4"]%string) /\
  derived_visit global_root_decl
    (mkSubject (mkT "TestGlobalRoot" 4 false) "" [sub_of (Node (SLeaf u32_t) [])] (fun _ => 0) no_custom) =
  Some (VInline (key_new "TestGlobalRoot") 4 (VInline (key_new "x") 4 (VInline (key_new "u32") 4 VRet VRet) VRet) VRet).
Proof. split; [|split]; vm_compute; reflexivity. Qed.

(** ** bumpalo.rs 54-90: [used] is the sum of the chunks; the rest of the arena
    is unused, before and after a further allocation in the same chunk. *)
Example test_bumpalo :
  bump_counters Debug 448 [4] = Some (4, 444) /\ bump_counters Debug 448 [6] = Some (6, 442) /\
  option_map fst (bump_counters Debug 8064 [1985; 1008; 1008]) = Some 4001.
Proof. repeat split; vm_compute; reflexivity. Qed.

(** ** test_derive/{skip,bounds,visit}.rs: these compile. *)
Definition allocative_attr (ts : list tok) : attr := mkAttr (mkPath false [mkSeg false "allocative" None]) (MList ts).
Definition skip_attr : attr := allocative_attr [TId "skip"].
Definition unit_path (s : string) : DeriveModel.path := mkPath false [mkSeg false s None].

Example test_ignore_field :
  option_map de_body (derive_allocative_impl (fun _ => true)
    (mkInput "TestIgnoreField" [] None [] (DStruct (FNamed [mkField "_unsupported" [skip_attr] "Unsupported"])))) =
  Some [LetEnterSelf; LetPattern ["_unsupported"%string]; Exit].
Proof. vm_compute. reflexivity. Qed.

Example test_skip_on_struct_and_enum :
  option_map de_body (derive_allocative_impl (fun _ => true)
    (mkInput "TestSkipOnStruct" [] None [skip_attr] (DStruct (FNamed [mkField "_unsupported" [] "Unsupported"])))) =
  Some [LetEnterSelf; Exit] /\
  option_map de_body (derive_allocative_impl (fun _ => true)
    (mkInput "TestSkipOnEnum" [] None [skip_attr] (DEnum [mkVariant "Unsupported" [] (FUnnamed [mkField "" [] "Unsupported"])]))) =
  Some [LetEnterSelf; Exit] /\
  option_map de_body (derive_allocative_impl (fun _ => true) (mkInput "TestEmptyNoVariants" [] None [] (DEnum []))) =
  Some [LetEnterSelf; Exit].
Proof. repeat split; vm_compute; reflexivity. Qed.

Example test_ignore_enum_variant :
  option_map de_body (derive_allocative_impl (fun _ => true)
    (mkInput "E" [] None [] (DEnum
       [mkVariant "String" [] (FUnnamed [mkField "" [] "String"]);
        mkVariant "Unsupported" [skip_attr] (FUnnamed [mkField "" [] "Unsupported"]);
        mkVariant "UnsupportedInside" [] (FUnnamed [mkField "" [skip_attr] "Unsupported"])]))) =
  Some [LetEnterSelf;
        Match [("String", ["f0"], [LetEnter (key_new "String") SizeSelf; VisitField "String" (key_new "0") "f0"; Exit]);
               ("Unsupported", ["f0"], [LetEnter (key_new "Unsupported") SizeSelf; Exit]);
               ("UnsupportedInside", ["f0"], [LetEnter (key_new "UnsupportedInside") SizeSelf; Exit])]%string;
        Exit].
Proof. vm_compute. reflexivity. Qed.

Example test_bounds :
  option_map de_header (derive_allocative_impl (fun _ => true)
    (mkInput "HashMap" [GType "K" [] None; GType "V" [] None; GType "S" [] (Some "std::collections::hash_map::RandomState"%string)] None
       [allocative_attr [TId "bound"; TEq; TStr "K: Allocative, V:Allocative, S"]]
       (DStruct (FNamed [mkField "map" [] "std::collections::HashMap<K, V, S>"])))) =
  Some (HText "K: Allocative, V:Allocative, S") /\
  option_map de_header (derive_allocative_impl (fun _ => true)
    (mkInput "IgnoreBound" [GType "T" [] None] None [allocative_attr [TId "bound"; TEq; TStr ""]]
       (DStruct (FNamed [mkField "t" [skip_attr] "T"])))) = Some (HParams [GType "T" [] None]) /\
  option_map de_header (derive_allocative_impl (fun _ => true)
    (mkInput "TypeLevelSkipImpliesNoBounds" [GType "T" [] None] None [skip_attr]
       (DStruct (FNamed [mkField "t" [] "T"])))) = Some (HParams [GType "T" [] None]).
Proof. repeat split; vm_compute; reflexivity. Qed.

Example test_visit :
  derived_visit
    (mkInput "MyStruct" [] None [] (DStruct (FNamed
       [mkField "field" [allocative_attr [TId "visit"; TEq; TId "visit_does_not_implement_allocative"]] "DoesNotImplementAllocative<String>"])))
    (mkSubject (mkT "MyStruct" 24 true) "" [(24, VCrash)] (fun _ => 24)
       (fun f _ => if path_is_ident f "visit_does_not_implement_allocative" then v_simple_sized "DoesNotImplementAllocative" 24 else VCrash)) =
  Some (VInline (key_new "MyStruct") 24
          (VInline (key_new "field") 24 (VInline (key_new "DoesNotImplementAllocative") 24 VRet VRet) VRet) VRet).
Proof. vm_compute. reflexivity. Qed.
