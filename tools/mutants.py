# Seeded bugs: (definition, file, old text, new text, English claim it breaks, properties the bug should break)
M = []
def m(defn, file, old, new, claim, *props):
    M.append(dict(defn=defn, file=file + ".v", old=old, new=new, claim=claim, props=list(props)))

# --- Key
m("key_hash_loop", "KeyModel", "(hash * 0x100000001b3) mod two64 in\n          key_hash_loop", "(hash * 0x100000001b1) mod two64 in\n          key_hash_loop", "Key::new and the derive macro compute the same (FNV-1a) hash", "C09")
m("key_hash_loop", "KeyModel", "let hash := N.lxor hash (N_of_ascii b) in\n          let hash := (hash * 0x100000001b3) mod two64 in\n          key_hash_loop", "let hash := (hash * 0x100000001b3) mod two64 in\n          let hash := N.lxor hash (N_of_ascii b) in\n          key_hash_loop", "Key::new computes FNV-1a (not FNV-1)", "C09")
m("derive_hash", "KeyModel", "derive_hash_loop (String.length s) s 0 0xcbf29ce484222325", "derive_hash_loop (String.length s) s 0 0xcbf29ce484222324", "derive-time keys equal run-time keys", "C09")
m("derive_hash", "KeyModel", "derive_hash_loop (String.length s) s 0", "derive_hash_loop (pred (String.length s)) s 0", "derive-time keys equal run-time keys (last byte hashed)", "C09")
m("key_eqb", "KeyModel", "N.eqb (k_hash a) (k_hash b) && String.eqb (k_str a) (k_str b).", "N.eqb (k_hash a) (k_hash b).", "keys are equal exactly when their strings are", "C08")
m("key_cmp", "KeyModel", "str_cmp (k_str a) (k_str b)", "str_cmp (k_str b) (k_str a)", "keys order like their strings; output sorted", "C08", "C04")
m("key_cmp", "KeyModel", "str_cmp (k_str a) (k_str b)", "N.compare (k_hash a) (k_hash b)", "keys order like their strings, not by hash", "C08", "C04")

# --- FlameGraph
m("fg_total_size", "FlameModel", "uadd m (fg_node_size f) (fg_children_size f)", "Some (fg_children_size f)", "total_size includes the node's own size", "C01")
m("fg_add", "FlameModel", "do n <- uadd m (fg_node_size self) onode;", "do n <- Some (N.max (fg_node_size self) onode);", "add adds node sizes", "C02")
m("fg_add", "FlameModel", "do cs <- uadd m (fg_children_size self) t;\n             match hm_find (fg_children self) k with\n             | Some e =>\n                 do e' <- fg_add m e child;\n                 loop (FG (hm_replace (fg_children self) k e') cs", "do cs <- uadd m (fg_children_size self) t;\n             match hm_find (fg_children self) k with\n             | Some e =>\n                 do e' <- fg_add m e child;\n                 loop (FG (hm_replace (fg_children self) k e') (fg_children_size self)", "children_size updated when merging into an existing child", "C01")
m("fg_add", "FlameModel", "| Some e =>\n                 do e' <- fg_add m e child;", "| Some e =>\n                 do e' <- Some child;", "add merges same-named children instead of overwriting", "C02")
m("fg_add_child", "FlameModel", "| Some e => do e' <- fg_add m e child;", "| Some e => do e' <- Some e;", "add_child to an existing child adds its sizes", "C02")
m("fg_add_child", "FlameModel", "  do t <- fg_total_size m child;\n  do cs <- uadd m (fg_children_size self) t;\n  (* match", "  do t <- Some (fg_node_size child);\n  do cs <- uadd m (fg_children_size self) t;\n  (* match", "add_child accounts the child's total, not own size", "C01")
m("fg_add_self", "FlameModel", "Some (FG (fg_children self) (fg_children_size self) n)", "Some (FG (fg_children self) n n)", "add_self touches the node only", "C02")
m("fg_write_impl", "FlameModel", "if negb (N.eqb node_size 0) then", "if N.ltb 1 node_size then", "every node of non-zero size gets a line", "C04")
m("fg_write_impl", "FlameModel", "if negb (N.eqb node_size 0) then", "if true then", "zero-size nodes get no line", "C04")
m("fg_write_impl", "FlameModel", "| [] => \"\"                         (* Don't care. *)", "| [] => fg_line stack node_size", "no line for the empty stack", "C04")
m("fg_write_impl", "FlameModel", "(stack ++ [key_deref k])%list", "([key_deref k] ++ stack)%list", "stack is printed root first", "C04")
m("fg_write_impl", "FlameModel", "concat_str (map snd (sort_by_key", "concat_str (map snd (id", "output independent of map order", "C05")
m("fg_line", "FlameModel", "join \";\" stack", "join \",\" stack", "frames separated by ';'", "C04")
m("fg_line", "FlameModel", "show_N n ++ newline", "show_N n", "one line per node", "C04")
m("insert_by_key", "HMap", "| Gt => y :: insert_by_key x l'", "| Gt => y :: x :: l'", "children are printed in sorted order", "C04")
m("hm_find", "HMap", "if key_eqb k' k then Some v", "if String.eqb (k_str k') (k_str k) && N.eqb (k_hash k') 0 then Some v", "lookup finds the child with the same name", "C01")
m("hm_replace", "HMap", "then (k', v) :: m' else", "then m' else", "merging keeps the child", "C02")

# --- Builder
m("down", "BuilderModel", "| Some e => (set_current b (mkTS (ts_stack (b_current b)) e), Fine)", "| Some e => (set_current b (mkTS (ts_stack cur) e), Fine)", "entering an existing child pushes the parent", "C10")
m("down", "BuilderModel", "(hm_insert_new (td_children td) k next_tree_id)", "(hm_insert_new (td_children td) k (ts_tree cur))", "a new child gets its own node", "C12")
m("up", "BuilderModel", "(set_current b (mkTS rest pop), true)", "(set_current b (mkTS rest (ts_tree (b_current b))), true)", "exit returns to the parent", "C12")
m("add_size", "BuilderModel", "| None => (b, Panicked)\n      | Some s =>\n          (set_trees b (upd (b_trees b) (ts_tree (b_current b))\n             (mkTD s ", "| None => (b, Panicked)\n      | Some s =>\n          (set_trees b (upd (b_trees b) (ts_tree (b_current b))\n             (mkTD size ", "sizes accumulate on the same stack", "C12")
m("enter_unique", "BuilderModel", "bind_status (add_size m b size) (fun b => mark_unique b)).", "bind_status (add_size m b size) (fun b => (b, Fine))).", "children of a unique pointer are not subtracted from it", "C12", "C17")
m("mark_unique", "BuilderModel", "(mkTD (td_size td) (td_rem td) true (td_children td))", "(mkTD 0 (td_rem td) true (td_children td))", "a unique pointer's own size is kept", "C12")
m("enter_shared", "BuilderModel", "if ptr_mem p (b_visited b) then", "if false then", "a shared allocation is visited once", "C14", "C15")
m("enter_shared", "BuilderModel", "let (b, st) := exit_impl b in (b, st, false)", "(b, Fine, false)", "a repeated enter_shared leaves the scope", "C41", "C10")
m("enter_shared", "BuilderModel", "let b := set_visited b (p :: b_visited b) in", "", "visited set is updated", "C14")
m("enter_shared", "BuilderModel", "(mkTS [] (b_root b)), Fine, true)", "(mkTS [] (ts_tree (b_current b))), Fine, true)", "shared pointees are reported at the top level", "C14")
m("enter_shared", "BuilderModel", "set_shared b (b_current b :: b_shared b)", "set_shared b [b_current b]", "nested shared pointers restore every stack", "C10", "C12")
m("enter_shared", "BuilderModel", "match bind_status (down b k) (fun b => add_size m b size) with", "match (if ptr_mem p (b_visited b) then bind_status (down b k) (fun b => (b, Fine)) else bind_status (down b k) (fun b => add_size m b size)) with", "every reference counts the pointer's own size", "C14", "C12")
m("exit_impl", "BuilderModel", "          let (b, was_up) := up b in\n          if was_up then (b, Fine) else (b, Panicked)", "          (b, Fine)", "leaving a shared scope also leaves the pointer's node", "C10", "C12")
m("exit_impl", "BuilderModel", "| [] => (set_entered b false, Fine)", "| [] => (b, Fine)", "after the root scope is left the builder accepts another root", "C10")
m("root_visitor", "BuilderModel", "if b_entered b then (b, Panicked)", "if false then (b, Panicked)", "root_visitor refuses while a root visitor is live or leaked", "C11")
m("finish_impl", "BuilderModel", "| [], [], false =>", "| [], _, false =>", "finish refuses on a leaked visitor", "C11")
m("finish_impl", "BuilderModel", "| [], [], false =>", "| [], [], _ =>", "finish refuses on a live or leaked root visitor", "C11")
m("finish_impl", "BuilderModel", "| [], [], false =>", "| _, [], false =>", "finish refuses on a leaked shared visitor", "C11")
m("update_sizes", "BuilderModel", "(if td_unique td then Some 0", "(if negb (td_unique td) then Some 0", "only inline children are subtracted", "C12")
m("update_sizes", "BuilderModel", "do td <- tree_get t id;\n      do t <- us_loop (update_sizes m fuel') (td_children td) t;", "do td <- tree_get t id;\n      do t <- Some t;", "sizes of all levels are adjusted", "C12")
m("update_sizes", "BuilderModel", "(isaturating_sub (as_isize (td_size td)) (as_isize children_size))", "(as_isize (td_size td))", "own size excludes inline children", "C12")
m("tw_node", "BuilderModel", "if (0 <? td_rem tree)%Z then", "if (0 <=? td_rem tree)%Z then", "(equivalent: zero remainder adds nothing)", )
m("tw_node", "BuilderModel", "else if (td_rem tree <? 0)%Z", "else if (td_rem tree <=? 0)%Z", "warnings only for declared < inline children", "C13")
m("tw_node", "BuilderModel", "Some (fg_default, warning_line stack (td_size tree) ic)", "Some (fg_default, \"\"%string)", "every misdeclared node is warned about", "C13")
m("tw_node", "BuilderModel", "(FG [] 0 (Z.to_N (td_rem tree)), \"\"%string)", "(FG [] 0 (td_size tree), \"\"%string)", "own size excludes inline children", "C12")
m("inline_children_size", "BuilderModel", "isub m (as_isize (td_size td)) (td_rem td)", "Some (td_rem td)", "the warning states the size of inline children", "C13")
m("tw_loop", "BuilderModel", "tw_loop m g stack l' f (w ++ cw)%string", "tw_loop m g stack l' f cw", "no warning is lost", "C13")
m("tw_loop", "BuilderModel", "do f <- fg_add_child m f k cf;", "do f <- (if N.eqb (fg_node_size cf) 0 then Some f else fg_add_child m f k cf);", "children below zero-size nodes are kept", "C12")
m("warning_line", "BuilderModel", "show_N size ++\n   \", size of inline children: \" ++ show_Z inline", "show_Z inline ++\n   \", size of inline children: \" ++ show_N size", "the warning states declared size and inline size in that order", "C13")
m("tree_write", "BuilderModel", "(sort_by_key (td_children tree)) flame_graph w", "(td_children tree) flame_graph w", "warnings are independent of map order", "C05", "C13")

# --- Visitor
m("leave_scope", "VisitorModel", "| (b, Aborted) => (b, Aborted)\n  | (b, o) => match", "| (b, Aborted) => (b, Aborted)\n  | (b, Unwinding) => (b, Unwinding)\n  | (b, o) => match", "unwinding exits the open scopes", "C23", "C10")
m("leave_scope", "VisitorModel", "| (b', Fine) => (b', o)", "| (b', Fine) => (b, o)", "leaving a scope exits", "C10")
m("v_iter", "VisitorModel", "if negb nd || N.eqb sz 0 then", "if negb nd && N.eqb sz 0 then", "(bulk accounting of elements without drop; sizes unchanged)")
m("v_iter", "VisitorModel", "if negb nd || N.eqb sz 0 then", "if nd || N.eqb sz 0 then", "elements that own memory are visited", "C33")
m("v_iter", "VisitorModel", "with_val (umul m sz (N.of_nat (length items)))", "with_val (Some sz)", "all elements are counted", "C32", "C33")
m("v_vec_like_body", "VisitorModel", "with_val (umul m sz capacity) (fun total =>", "with_val (umul m sz (N.of_nat (length items))) (fun total =>", "capacity is counted, not length", "C32", "C35")
m("v_vec_like_body", "VisitorModel", "(wrapping_sub capacity (N.of_nat (length items)))", "capacity", "unused capacity excludes used", "C32", "C35")
m("v_generic_map_fields", "VisitorModel", "(v_field VALUE_NAME (fst (snd kv)) (snd (snd kv)))) entries)", "VRet) entries)", "values of a map are visited", "C33", "C34")
m("v_generic_set_fields", "VisitorModel", "v_field_with DATA_NAME ptr_size\n    (vseqs (map (fun k => v_field KEY_NAME (fst k) (snd k)) entries))", "VUnique DATA_NAME ptr_size\n    (vseqs (map (fun k => v_field KEY_NAME (fst k) (snd k)) entries)) VRet", "(generic sets under-report: entries not counted)", "C34")

# --- size_of
m("so_enter_inline", "SizeOfModel", "match parent with NKUnique => uadd m size s | _ => Some size end", "match parent with NKUnique | NKInline => uadd m size s | _ => Some size end", "only blocks directly behind unique pointers count", "C19")
m("so_enter_unique", "SizeOfModel", "(_parent : node_kind) : N := size.", "(_parent : node_kind) : N := size + _size.", "the pointer itself is not counted", "C19")
m("so_enter_shared", "SizeOfModel", "(size, false)", "(size, true)", "shared data is ignored", "C19")
m("run_so", "SizeOfModel", "do size <- run_so m body NKUnique (so_enter_unique", "do size <- run_so m body NKInline (so_enter_unique", "unique allocations are counted", "C19")
m("size_of_unique", "SizeOfModel", "uadd m size_of_T d", "Some d", "size_of_unique includes the value itself", "C19")

# --- Global
m("register_root", "GlobalModel", "w_roots w ++ [r]", "if existsb (N.eqb r) (w_roots w) then w_roots w else w_roots w ++ [r]", "every registration is kept (multiset)", "C25", "C24")
m("roots", "GlobalModel", "Some (w_unlock w, l)", "Some (w, l)", "no lock is held while visiting roots", "C25")
m("g_visit_list", "GlobalModel", "g_then (g_visit_root m (code i r) w b) (g_visit_list m code (S i) l')", "g_then (g_visit_list m code (S i) l' w b) (fun w b => g_visit_root m (code i r) w b)", "roots are visited in registration order", "C25")
m("gstep.g_push_write", "GlobalModel", "(mkG (v ++ [r]) (g_lock s)", "(mkG (r :: v) (g_lock s)", "snapshots list roots in registration order", "C24")
m("gstep.g_lock_acquired", "GlobalModel", "th_pc (g_threads s t) = Waiting o -> g_lock s = None ->", "th_pc (g_threads s t) = Waiting o ->", "the registry is linearizable (mutual exclusion)", "C24")
m("gstep.g_clone_copy", "GlobalModel", "(Copying (acc ++ [x]))", "(Copying (x :: acc))", "snapshots list roots in registration order", "C24")
m("gstep.g_clone_end", "GlobalModel", "th_pc (g_threads s t) = Copying acc -> nth_error (g_roots s) (length acc) = None ->", "th_pc (g_threads s t) = Copying acc ->", "snapshots are complete", "C24")
m("gstep.g_unlock", "GlobalModel", "gstep s [] (set_pc (mkG (g_roots s) None (g_threads s)) t (Returning o res))", "gstep s [] (set_pc s t (Returning o res))", "the lock is released (progress)", "C24")

# --- Layout
m("rcbox_unit_layout", "LayoutModel", "rcbox_unit_layout : layout := mkLayout 16 8", "rcbox_unit_layout : layout := mkLayout 8 8", "Arc/Rc size includes both counters", "C30")
m("rcbox_layout_size", "LayoutModel", "option_map (fun l => l_size (layout_pad_to_align l)) (layout_extend rcbox_unit_layout v)", "option_map l_size (layout_extend rcbox_unit_layout v)", "Arc/Rc size is padded", "C30")
m("rcbox_layout_size", "LayoutModel", "(layout_extend rcbox_unit_layout v)", "(layout_extend v rcbox_unit_layout)", "counters come before the value", "C30")
m("triomphe_arc_size", "LayoutModel", "option_map (fun l => l_size (layout_pad_to_align l)) (layout_extend arc_inner_repr_layout v)", "option_map l_size (layout_extend arc_inner_repr_layout v)", "triomphe Arc size is padded", "C30")
m("thin_arc_inner_repr_layout", "LayoutModel", "repr_c [usize_layout; h; usize_layout]", "repr_c [usize_layout; h]", "ThinArc size includes the length", "C30")
m("thin_arc_size", "LayoutModel", "do a <- layout_array sz al n;", "do a <- layout_array sz al 1;", "ThinArc size includes all elements", "C30")
m("round_up", "LayoutModel", "(n + a - 1) / a * a", "(n + a) / a * a", "repr(C) offsets minimal", "C30")
m("raw_table_alloc_size_for_len", "LayoutModel", "if len <? 4 then Some 4", "if len <? 3 then Some 4", "(equivalent: next_power_of_two 3 = 4)")
m("raw_table_alloc_size_for_len", "LayoutModel", "if len <? 4 then Some 4", "if len <? 2 then Some 4", "at least four buckets", "C31")
m("raw_table_alloc_size_for_len", "LayoutModel", "if len =? 0 then Some 0\n                 else", "", "empty tables allocate nothing", "C31")
m("raw_table_alloc_size_for_len", "LayoutModel", "do entry <- uadd m sz 1;", "do entry <- Some sz;", "control bytes are counted", "C31")
m("next_power_of_two", "LayoutModel", "2 ^ (N.log2 (n - 1) + 1)", "2 ^ (N.log2 n + 1)", "exact at powers of two", "C31")
m("bump_counters", "LayoutModel", "Some (used, wrapping_sub allocated used)", "Some (allocated, 0)", "used and unused bytes are told apart", "C40")
m("bump_counters", "LayoutModel", "Some (used, wrapping_sub allocated used)", "Some (used, allocated)", "used + unused = allocated", "C40")

# --- Impl
m("impl_slice", "ImplModel", "(t_size e * len items)\n    (fields_named DATA_NAME items) VRet", "(t_size e)\n    (fields_named DATA_NAME items) VRet", "a slice announces its whole size", "C35", "C45")
m("fields", "ImplModel", "vseq (field (key_new n) c) (fields names' cs')", "field (key_new n) c", "every field is visited", "C33")
m("fields_kv", "ImplModel", "vseq (field kk k) (vseq (field kv v) (fields_kv kk kv cs'))", "vseq (field kk v) (vseq (field kv k) (fields_kv kk kv cs'))", "keys under 'key', values under 'value'", "C46")
m("impl_enum", "ImplModel", "VInline (key_new v) (t_size t) (fields names cs) VRet", "VInline (key_new v) 0 (fields names cs) VRet", "no warnings for derived enums", "C35")
m("impl_manually_drop", "ImplModel", "(fields_named (key_new \"inner\") cs)", "VRet", "contents of ManuallyDrop are visited", "C33")
m("impl_cell", "ImplModel", "if available then fields_named DATA_NAME cs else VRet", "fields_named DATA_NAME cs", "locked content is not touched", "C36")
m("impl_cell", "ImplModel", "if available then fields_named DATA_NAME cs else VRet", "VRet", "available content is visited", "C33", "C36")
m("impl_once", "ImplModel", "if available then vseqs (map snd cs) else VRet", "vseqs (map snd cs)", "uninitialised content is not touched", "C36")
m("impl_box", "ImplModel", "VUnique PTR_NAME ps (vseqs (map snd cs)) VRet", "VInline PTR_NAME ps (vseqs (map snd cs)) VRet", "boxed data is heap data", "C33", "C35")
m("impl_vec", "ImplModel", "(unused_capacity m cap (len cs) (t_size e))) VRet\n     else VRet).\n\n(** std/unsorted.rs 98-112", "VRet) VRet\n     else VRet).\n\n(** std/unsorted.rs 98-112", "Vec counts its capacity", "C32", "C33")
m("impl_vec", "ImplModel", "Definition impl_vec (m : mode) (t e : tinfo) (cap : N) (cs : list sub) : vprog :=\n  enter_self t\n    (if negb (cap =? 0) && negb (t_size e =? 0) then", "Definition impl_vec (m : mode) (t e : tinfo) (cap : N) (cs : list sub) : vprog :=\n  enter_self t\n    (if true then", "empty Vec shows no allocation", "C32")
m("unused_capacity", "ImplModel", "do d <- usub m cap n; umul m d sz", "do d <- usub m cap n; Some d", "unused capacity is in bytes", "C32")
m("impl_vec_deque", "ImplModel", "(map snd (skipn front cs))", "(map snd (firstn front cs))", "both halves of a VecDeque are visited", "C33")
m("impl_string", "ImplModel", "(repeat (v_simple_sized \"u8\" 1) n) cap", "(repeat (v_simple_sized \"u8\" 1) n) (N.of_nat n)", "String counts its capacity", "C32")
m("impl_path_buf", "ImplModel", "(vseq (v_simple (key_new \"path\") n)", "(vseq (v_simple (key_new \"path\") cap)", "PathBuf counts its capacity once", "C32")
m("impl_compact_string", "ImplModel", "(with_val (usub m cap n) (v_simple UNUSED_CAPACITY_NAME))) VRet\n    | None", "VRet) VRet\n    | None", "CompactString counts its capacity", "C32")
m("impl_slab", "ImplModel", "(vseq (v_iter m (t_name e) (t_size e) (t_drop e) (map snd cs))\n               (unused_capacity m cap (len cs) (t_size e)))", "(vseq (v_iter m (t_name e) (t_size e) (t_drop e) (map snd cs))\n               (unused_capacity m cap 0 (t_size e)))", "Slab counts its capacity once", "C32")
m("impl_small_vec", "ImplModel", "(if spilled then", "(if negb spilled then", "SmallVec reports heap data only when spilled", "C33")
m("impl_big_int", "ImplModel", "umul m digits 8", "umul m digits 4", "BigInt digits are u64", "C33")
m("add_raw_table_for_len", "ImplModel", "if n =? 0 then VRet", "if n =? 1 then VRet", "index table counted", "C33")
m("impl_index_map", "ImplModel", "(unused_capacity m cap n (t_size e)))\n       (add_raw_table_for_len m n)", "(unused_capacity m cap n (t_size e)))\n       VRet", "index table counted", "C33")
m("impl_dash_map", "ImplModel", "(usaturating_sub cap n)", "cap", "unused excludes used", "C33", "C35")
m("impl_hash_table", "ImplModel", "VInline CAPACITY_NAME total (v_iter m (t_name e) (t_size e) (t_drop e) (map snd cs)) VRet", "VInline CAPACITY_NAME total VRet VRet", "elements of a HashTable are visited", "C33")
m("impl_shared_ptr", "ImplModel", "(VShared PTR_NAME ps x (pointee x) VRet VRet)", "(VUnique PTR_NAME ps (pointee x) VRet)", "an Arc's pointee is shared, counted once", "C43", "C33")
m("impl_weak", "ImplModel", "| Some (t', ps, x) => impl_shared_ptr pointee t' ps x", "| Some (t', ps, x) => VRet", "a live Weak visits its target", "C37")
m("visit_inner", "ImplModel", "(fun s => VInline (key_new \"ArcInner\") s (snd c) VRet)", "(fun s => VInline (key_new \"ArcInner\") (fst c) (snd c) VRet)", "counters of an Arc allocation are counted", "C44")
m("visit_inner", "ImplModel", "| InTriomphe a => with_val (triomphe_arc_size (mkLayout (fst c) a))", "| InTriomphe a => with_val (rcbox_layout_size (mkLayout (fst c) a))", "triomphe Arcs have one counter", "C44")
m("impl_str", "ImplModel", "impl_str (n : N) : vprog := v_simple (key_new \"str\") n", "impl_str (n : N) : vprog := v_simple (key_new \"String\") n", "str is reported under the name str", "C46")
m("impl_silent", "ImplModel", "impl_silent : vprog := VRet", "impl_silent : vprog := VCrash", "visiting &'static data / PhantomData does nothing", "C45")
m("impl_big_int", "ImplModel", "(v_simple DATA_NAME)) VRet).\n\n(** indexmap.rs 25", "(v_simple VALUE_NAME)) VRet).\n\n(** indexmap.rs 25", "BigInt digits under ptr;data", "C46")
m("impl_small_vec", "ImplModel", "VUnique PTR_NAME ptr_size (fields_named (key_new \"data\") cs) VRet", "VUnique DATA_NAME ptr_size (fields_named (key_new \"data\") cs) VRet", "SmallVec heap data under ptr;data", "C46")

# --- Derive
m("parse_item", "DeriveModel", "if aa_skip o then None else Some (mkAttrs true", "Some (mkAttrs true", "duplicate skip rejected", "C27")
m("parse_item", "DeriveModel", "(mkAttrs (aa_skip o) (Some b) (aa_visit o), r')", "(mkAttrs (aa_skip o) (Some b) None, r')", "attributes accumulate", "C27")
m("parse_items", "DeriveModel", "| TComma :: r => parse_items fuel' (fst x) r", "| TComma :: r => Some (fst x)", "all items are read", "C27")
m("extract_attrs_from", "DeriveModel", "| _ => None\n        end\n      else extract_attrs_from o l'", "| _ => extract_attrs_from o l'\n        end\n      else extract_attrs_from o l'", "#[allocative] without arguments rejected", "C27")
m("path_is_ident", "DeriveModel", "| mkPath false [mkSeg _ s' None] => String.eqb s' s", "| mkPath _ (mkSeg _ s' _ :: _) => String.eqb s' s", "only the attribute allocative counts", "C27")
m("gen_visit_field", "DeriveModel", "if aa_skip at_ then Some []\n", "if aa_skip at_ then Some [VisitField (fd_ty f) field_key ident]\n", "skipped fields are not visited", "C26")
m("gen_visit_field", "DeriveModel", "LetEnter field_key (SizeTy (fd_ty f)); CallVisit v ident; Exit", "LetEnter field_key (SizeTy (fd_ty f)); VisitField (fd_ty f) field_key ident; Exit", "visit = f calls f", "C26")
m("gen_visit_field", "DeriveModel", "LetEnter field_key (SizeTy (fd_ty f)); CallVisit", "LetEnter field_key SizeSelf; CallVisit", "a custom-visited field announces its own size", "C26")
m("gen_visit_field", "DeriveModel", "let field_key := derive_key label in", "let field_key := derive_key ident in", "tuple fields are labelled 0, 1, ...", "C26")
m("unnamed_name", "DeriveModel", "(\"f\" ++ show_N i)", "(\"f\" ++ show_N (i / 2))", "tuple binders are distinct", "C26", "C28")
m("gen_visit_enum_variant", "DeriveModel", "LetEnter variant_key SizeSelf :: body ++ [Exit]", "LetEnter variant_key SizeSelf :: body", "(equivalent: drop at block end)", )
m("gen_visit_enum_variant", "DeriveModel", "gen_visit_fields (aa_skip at_) fs", "gen_visit_fields false fs", "skipped variants are not visited", "C26")
m("gen_visit_enum_variant", "DeriveModel", "| FUnit => Some (vd_name v, [], [])", "| FUnit => Some (vd_name v, [], [LetEnter variant_key SizeSelf; Exit])", "unit variants open no scope", "C26")
m("gen_visit_struct", "DeriveModel", "gen_visit_fields false fs", "gen_visit_fields true fs", "fields of a struct are visited", "C26")
m("gen_visit_body", "DeriveModel", "| DUnion => None", "| DUnion => Some []", "unions are rejected", "C26")
m("impl_generics", "DeriveModel", "(if add then bs ++ [\"allocative::Allocative\"%string] else bs) None", "(if add then [\"allocative::Allocative\"%string] else bs) None", "user bounds are kept", "C29")
m("impl_generics", "DeriveModel", "(if add then bs ++ [\"allocative::Allocative\"%string] else bs) None", "(if add then bs ++ [\"allocative::Allocative\"%string] else bs) _def", "defaults are dropped", "C29")
m("impl_generics", "DeriveModel", "None => negb (aa_skip at_)", "None => true", "skip drops the bounds", "C29")
m("impl_generics", "DeriveModel", "| Some (String _ _ as b) => if lexes b then Some (HText b) else None", "| Some b => if lexes b then Some (HText b) else None", "bound = \"\" keeps the parameters", "C29")
m("derive_allocative_impl", "DeriveModel", "(LetEnterSelf :: body ++ [Exit])", "(body ++ [])", "the derived visit opens a scope for the type", "C26")
m("derive_allocative_impl", "DeriveModel", "mkDerived g (di_where i)", "mkDerived g None", "the where clause is kept", "C29")
m("global_root_impl", "DeriveModel", "(\"_\" ++ to_lowercase name ++ \"_register_root\")", "(\"_register_root\")", "two roots in a module do not clash", "C42")
m("global_root_impl", "DeriveModel", "Some [IStatic name tokens; ICtorRegister register_name name]", "Some [IStatic name tokens]", "the static is registered", "C42")
m("parse_segment", "DeriveModel", "if is_one_of [\"super\"; \"self\"; \"crate\"; \"try\"]%string s", "if is_one_of [\"super\"; \"self\"; \"crate\"]%string s", "(visit = try; rejected by rustc anyway)", "C27")
for x in M:
    if x["new"].endswith(" _def"):
        # keep the default instead of dropping it
        x["old"] = "| GType n bs _ =>\n                              GType n (if add then bs ++ [\"allocative::Allocative\"%string] else bs) None"
        x["new"] = "| GType n bs d =>\n                              GType n (if add then bs ++ [\"allocative::Allocative\"%string] else bs) d"

# ===== wave 2: definitions not edited before
# --- Base
m("uadd", "Base", "else match m with Debug => None | Release => Some ((a + b) mod two64) end.", "else match m with Debug => None | Release => None end.", "release arithmetic wraps instead of panicking", "C39", "C22")
m("uadd", "Base", "if a + b <? two64 then Some (a + b)", "if a + b <=? two64 then Some (a + b)", "a debug-mode add panics exactly on overflow", "C02", "C39")
m("uadd", "Base", "else match m with Debug => None | Release => Some ((a + b) mod two64) end.", "else Some (two64 - 1).", "release addition wraps, it does not saturate", "C39", "C02")
m("usub", "Base", "if b <=? a then Some (a - b)", "if b <? a then Some (a - b)", "a full container (len = capacity) is visited without panic", "C45", "C32")
m("umul", "Base", "if a * b <? two64 then Some (a * b)", "if a * b <? two63 then Some (a * b)", "sizes up to usize::MAX are representable")
m("wrapping_sub", "Base", "Definition wrapping_sub (a b : N) : N := (a + two64 - b) mod two64.", "Definition wrapping_sub (a b : N) : N := a + two64 - b.", "padding and unused capacity are exact", "C30", "C32", "C40")
m("as_isize", "Base", "if x <? two63 then Z.of_N x else (Z.of_N x - Z.of_N two64)%Z.", "if x <? 64 then Z.of_N x else (Z.of_N x - Z.of_N two64)%Z.", "sizes below 2^63 keep their value", "C12")
m("isaturating_sub", "Base", "Z.max isize_min (Z.min isize_max (a - b)).", "Z.max 0 (Z.min isize_max (a - b)).", "declared < inline children is noticed", "C13")
m("isub", "Base", "let r := (a - b)%Z in", "let r := (a + b)%Z in", "the warning states the size of inline children", "C13")
m("usum", "Base", "do a <- uadd m acc x; usum m a l'", "do a <- uadd m acc x; Some a", "all children are summed", "C12", "C40")
m("str_cmp", "Base", "| EmptyString, String _ _ => Lt\n  | String _ _, EmptyString => Gt", "| EmptyString, String _ _ => Gt\n  | String _ _, EmptyString => Lt", "a prefix sorts before its extensions", "C08", "C04")
m("str_cmp", "Base", "| Eq => str_cmp a' b'\n      | c => c", "| Eq => str_cmp a' b'\n      | Lt => Gt | Gt => Lt", "bytes compare unsigned, ascending", "C08")
m("str_cmp", "Base", "match N.compare (N_of_ascii x) (N_of_ascii y) with", "match N.compare ((N_of_ascii x + 128) mod 256) ((N_of_ascii y + 128) mod 256) with", "bytes compare unsigned (non-ASCII after ASCII)", "C08")
m("join", "Base", "| [x] => x\n", "| [x] => (x ++ sep)%string\n", "no trailing separator", "C04", "C06")
m("show_N", "Base", "NilZero.string_of_uint (N.to_uint n)", "NilZero.string_of_uint (Decimal.rev (N.to_uint n))", "sizes are printed in decimal", "C04", "C06")
m("show_Z", "Base", "NilZero.string_of_int (Z.to_int z)", "NilZero.string_of_int (Z.to_int (Z.abs z + 1))", "warning texts state sizes in decimal", "C13")
# --- Key
m("key_hash_fn", "KeyModel", "key_hash_loop (String.length s) s 0 0xcbf29ce484222325", "key_hash_loop (String.length s) s 1 0xcbf29ce484222325", "Key::new never panics", "C09", "C08")
m("key_for_type_name", "KeyModel", "key_for_type_name (tn : string) : key := key_new tn", "key_for_type_name (tn : string) : key := mkKey 0 tn", "a type name and a field name with equal text are one frame", "C46", "C32")
m("key_hash_input", "KeyModel", "key_hash_input (a : key) : N := k_hash a.", "key_hash_input (a : key) : N := str_len (k_str a) + k_hash a.", "(equal keys still feed the same value)")
m("derive_key_opt", "KeyModel", "do h <- derive_hash s; Some (key_new_unchecked h s).", "do h <- derive_hash s; Some (key_new_unchecked (h + 1) s).", "derived keys equal run-time keys", "C09")
m("UNUSED_CAPACITY_NAME", "KeyModel", "key_new \"unused_capacity\"", "key_new \"unused\"", "unused capacity is reported as unused_capacity", "C32", "C46")
m("PTR_NAME", "KeyModel", "PTR_NAME : key := key_new \"ptr\"", "PTR_NAME : key := key_new \"data\"", "heap data is below a frame ptr", "C32", "C46")
m("KEY_NAME", "KeyModel", "KEY_NAME : key := key_new \"key\"", "KEY_NAME : key := key_new \"value\"", "keys under 'key', values under 'value'", "C46")
m("CAPACITY_NAME", "KeyModel", "CAPACITY_NAME : key := key_new \"capacity\"", "CAPACITY_NAME : key := key_new \"unused_capacity\"", "capacity frames are named capacity", "C46")
# --- HMap / Flame
m("hm_insert_new", "HMap", "m ++ [(k, v)]", "[(k, v)]", "adding a child keeps the others", "C02", "C12")
m("hm_insert_new", "HMap", "m ++ [(k, v)]", "(k, v) :: m", "(equivalent: map order is not observable)")
m("hm_replace", "HMap", "(k', v) :: m' else (k', v') :: hm_replace m' k v", "(k', v) :: m' else hm_replace m' k v", "merging into a child keeps its siblings", "C02")
m("sort_by_key", "HMap", "| x :: l' => insert_by_key x (sort_by_key l')", "| x :: l' => insert_by_key x l'", "children are printed in sorted order", "C04", "C05")
m("fg_add", "FlameModel", "loop (FG (hm_insert_new (fg_children self) k child) cs (fg_node_size self)) l'", "loop (FG (hm_insert_new (fg_children self) k child) (fg_children_size self) (fg_node_size self)) l'", "total_size counts added children", "C01")
m("fg_add", "FlameModel", "(FG (fg_children self) (fg_children_size self) n) ochildren", "(FG (fg_children self) (fg_children_size self) (fg_node_size self)) ochildren", "add adds node sizes", "C02")
m("fg_add_child", "FlameModel", "| None => Some (FG (hm_insert_new (fg_children self) k child) cs (fg_node_size self))\n  end.", "| None => Some (FG (hm_insert_new (fg_children self) k fg_default) cs (fg_node_size self))\n  end.", "a new child keeps its contents", "C01", "C02")
m("fg_add_self", "FlameModel", "do n <- uadd m (fg_node_size self) size;", "do n <- Some size;", "add_self accumulates", "C02")
m("fg_write", "FlameModel", "fg_write_impl f []", "fg_write_impl f [\"root\"%string]", "no artificial root frame", "C04")
m("fg_default", "FlameModel", "FG [] 0 0", "FG [] 0 1", "the default graph is empty", "C03", "C01")
# --- Builder
m("b_default", "BuilderModel", "mkB [] t (mkTS [] root) [] root false.", "mkB [] t (mkTS [] root) [] root true.", "a new builder accepts a root visitor", "C10")
m("b_default", "BuilderModel", "mkB [] t (mkTS [] root) [] root false.", "mkB [7] t (mkTS [] root) [] root false.", "a new builder has seen nothing", "C14", "C15")
m("new_tree", "BuilderModel", "(t ++ [td_default], length t)", "(t ++ [td_default], pred (length t))", "a new node gets its own index", "C10", "C12")
m("td_default", "BuilderModel", "mkTD 0 0%Z false []", "mkTD 0 0%Z true []", "new nodes are not unique", "C12")
m("down", "BuilderModel", "(mkTS (ts_tree cur :: ts_stack cur) (ts_tree cur))", "(mkTS (ts_stack cur) (ts_tree cur))", "exit returns to the parent", "C10", "C12")
m("down", "BuilderModel", "(mkTD (td_size td) (td_rem td) (td_unique td)\n                        (hm_insert_new", "(mkTD 0 (td_rem td) (td_unique td)\n                        (hm_insert_new", "entering a child keeps the parent's size", "C12")
m("up", "BuilderModel", "| [] => (b, false)", "| [] => (set_current b (mkTS [] (b_root b)), true)", "leaving a shared scope restores the saved stack", "C10", "C12")
m("add_size", "BuilderModel", "(mkTD s (td_rem td) (td_unique td) (td_children td))), Fine)", "(mkTD s (td_rem td) (td_unique td) [])), Fine)", "re-entering a node keeps its children", "C12")
m("add_size", "BuilderModel", "(mkTD s (td_rem td) (td_unique td) (td_children td))), Fine)", "(mkTD s (td_rem td) false (td_children td))), Fine)", "a node stays unique once marked", "C12")
m("exit_impl", "BuilderModel", "let b := set_current (set_shared b rest) shared in", "let b := set_current b shared in", "leaving a shared scope pops the saved stack", "C10", "C12")
m("exit_impl", "BuilderModel", "if negb (b_entered b) then (b, Panicked)", "if b_entered b then (b, Panicked)", "exit accepts a live root", "C10")
m("enter_inline", "BuilderModel", "bind_status (down b k) (fun b => add_size m b size).", "bind_status (add_size m b size) (fun b => down b k).", "the size is recorded on the entered node, not its parent", "C12")
m("enter_unique", "BuilderModel", "bind_status (down b k) (fun b =>\n  bind_status (add_size m b size) (fun b => mark_unique b)).", "bind_status (mark_unique b) (fun b =>\n  bind_status (down b k) (fun b => add_size m b size)).", "the pointer's own node is unique, not its parent", "C12")
m("ptr_mem", "BuilderModel", "existsb (N.eqb p) l.", "existsb (N.eqb (p / 2)) (map (fun x => x / 2) l).", "distinct allocations are distinguished", "C14", "C15")
m("root_visitor", "BuilderModel", "else (set_entered b true, Fine).", "else (b, Fine).", "a live root visitor is remembered", "C11", "C10")
m("us_loop", "BuilderModel", "| (_, c) :: l' => do t <- f c t; us_loop f l' t", "| (_, c) :: l' => f c t", "all subtrees are updated", "C12")
m("get_sizes", "BuilderModel", "do r <- get_sizes t l'; Some (td_size tc :: r)", "do r <- get_sizes t l'; Some (N.max 0 (Z.to_N (td_rem tc)) :: r)", "the declared sizes of children are subtracted, not their own sizes", "C12")
m("update_sizes", "BuilderModel", "do sizes <- get_sizes t (td_children td); usum m 0 sizes", "do sizes <- get_sizes t (firstn 1 (td_children td)); usum m 0 sizes", "all inline children are subtracted", "C12")
m("warning_line", "BuilderModel", "join \";\" stack ++", "concat_str stack ++", "the warning names the stack", "C13")
m("warning_line", "BuilderModel", "show_N size ++", "show_Z inline ++", "the warning states the declared size", "C13")
m("finish_impl", "BuilderModel", "do t <- update_sizes m (S (length (b_trees b))) (b_root b) (b_trees b);", "do t <- Some (b_trees b);", "own sizes are computed", "C12")
m("finish", "BuilderModel", "Some (mkOut f w).", "Some (mkOut f \"\").", "warnings are returned", "C13")
m("finish_and_write", "BuilderModel", "do o <- finish m b; Some (fg_write (out_flamegraph o)).", "do o <- finish m b; Some (out_warnings o ++ fg_write (out_flamegraph o))%string.", "finish_and_write writes the graph only", "C12")
# --- Visitor
m("vseq", "VisitorModel", "| VInline k s b r => VInline k s b (vseq r q)", "| VInline k s b r => VInline k s b r", "(model plumbing) code after a scope runs", "C33", "C26")
m("leave_scope", "VisitorModel", "| (b', Fine) => (b', o)", "| (b', Fine) => (b', Done)", "a panic in client code propagates", "C23")
m("leave_scope", "VisitorModel", "| (b, Aborted) => (b, Aborted)\n  | (b, o) =>", "| (b, Aborted) => (b, Aborted)\n  | (b, Unwinding) => (b, Unwinding)\n  | (b, o) =>", "unwinding drops the visitors", "C23")
m("and_then", "VisitorModel", "match r with (b, Done) => f b | _ => r end", "match r with (b, Aborted) => r | (b, _) => f b end", "code after a panic does not run", "C12", "C23")
m("run", "VisitorModel", "| (b, Fine, false) => run m r2 b", "| (b, Fine, false) => and_then (leave_scope (run m r2 b)) (fun b => (b, Done))", "a refused enter_shared gives no visitor to exit", "C10", "C41")
m("run", "VisitorModel", "| (b, Fine, true) => and_then (leave_scope (run m body b)) (run m r1)", "| (b, Fine, true) => and_then (leave_scope (run m VRet b)) (run m r1)", "the pointee is visited", "C12", "C14")
m("visit_root", "VisitorModel", "| (b, Fine) => leave_scope (run m p b)", "| (b, Fine) => run m p b", "visit_root leaves its visitor", "C10")
m("visit_roots", "VisitorModel", "| (b, _) => visit_roots m l' b\n               end", "| (b, Done) => visit_roots m l' b\n               | (b, Unwinding) => visit_roots m l' b_default\n               end", "what was recorded before a caught panic is kept", "C23", "C12")
m("profile", "VisitorModel", "match visit_roots m l b_default with", "match visit_roots m (firstn 1 l) b_default with", "every root is visited", "C12")
m("step", "VisitorModel", "| EvExit => (exit_impl b, false)", "| EvExit => (b, Fine, false)", "exit leaves the scope", "C10")
m("v_enter_self", "VisitorModel", "VInline (key_for_type_name tn) sz body VRet", "VInline (key_for_type_name tn) 0 body VRet", "a value announces its size", "C45", "C35")
m("v_simple", "VisitorModel", "v_simple (k : key) (s : N) : vprog := VInline k s VRet VRet", "v_simple (k : key) (s : N) : vprog := VUnique k s VRet VRet", "simple values are inline", "C32", "C33")
m("v_simple_sized", "VisitorModel", "v_simple_sized (tn : string) (sz : N) : vprog := v_enter_self tn sz VRet", "v_simple_sized (tn : string) (sz : N) : vprog := v_enter_self tn 8 VRet", "a leaf reports size_of::<T>()", "C45")
m("v_field_with", "VisitorModel", "VInline k size visit VRet.\n\nDefinition v_field ", "vseq (VInline k size VRet VRet) visit.\n\nDefinition v_field ", "a field's contents are below the field", "C46", "C35")
m("v_field", "VisitorModel", "v_field_with k size_of_val field_visit", "v_field_with k 0 field_visit", "a field announces its size", "C35", "C46")
m("v_generic_map_fields", "VisitorModel", "v_field_with DATA_NAME ptr_size\n    (vseqs (map (fun kv", "v_field_with DATA_NAME 0\n    (vseqs (map (fun kv", "(ptr_size of the data scope)", "C46")
m("ptr_size", "VisitorModel", "Definition ptr_size : N := 8.", "Definition ptr_size : N := 16.", "a thin pointer has 8 bytes", "C35", "C32")
# --- SizeOf
m("so_exit", "SizeOfModel", "so_exit (size : N) : N := size.", "so_exit (size : N) : N := 0.", "everything allocated is added up", "C19")
m("run_so", "SizeOfModel", "do size <- run_so m body NKInline size;\n      run_so m rest nk (so_exit size)", "do size <- run_so m body nk size;\n      run_so m rest nk (so_exit size)", "only the outermost inline part of a block counts", "C19")
m("run_so", "SizeOfModel", "else run_so m r2 nk size", "else run_so m body nk size", "shared pointees are skipped", "C19")
m("size_of_unique_allocated_data", "SizeOfModel", "do size <- run_so m root NKRoot 0;", "do size <- run_so m root NKUnique 0;", "the value's own inline bytes are not allocated data", "C19", "C33")
# --- Global
m("w_lock", "GlobalModel", "if w_held w then None else Some", "if false then None else Some", "(model) re-locking deadlocks")
m("visit_global_roots", "GlobalModel", "g_visit_list m code 0 l w b.", "g_visit_list m code 0 (rev l) w b.", "roots are visited in registration order", "C25")
m("visit_global_roots", "GlobalModel", "do wl <- roots w; let (w, l) := wl in g_visit_list m code 0 l w b.", "do wl <- roots w; let (w, l) := wl in g_visit_list m code 0 (firstn 1 l) w b.", "every root is visited", "C25")
m("g_visit_root", "GlobalModel", "| (b, Fine) => g_leave (grun m p w b)", "| (b, Fine) => grun m p w b", "each root's visitor is left", "C25")
m("g_then", "GlobalModel", "match wr with (w, (b, Done)) => f w b | _ => Some wr end", "match wr with (w, (b, Aborted)) => Some wr | (w, (b, _)) => f w b end", "a panic in a root leaves the loop", "C25")
m("grun", "GlobalModel", "| GRegister r rest => do w <- register_root w r; grun m rest w b", "| GRegister r rest => grun m rest w b", "registrations during the visit are kept", "C25")
m("register_root", "GlobalModel", "Some (w_unlock (mkW (w_roots w ++ [r]) (w_held w)))", "Some (mkW (w_roots w ++ [r]) (w_held w))", "register_root releases the lock", "C25")
m("gstep.g_push_read", "GlobalModel", "th_pc (g_threads s t) = Locked (Register r) ->", "th_pc (g_threads s t) = Waiting (Register r) ->", "push runs under the lock", "C24")
m("gstep.g_clone_start", "GlobalModel", "th_pc (g_threads s t) = Locked Snapshot ->", "th_pc (g_threads s t) = Waiting Snapshot ->", "clone runs under the lock", "C24")
# --- Layout
m("layout_from_size_align", "LayoutModel", "if size <=? two63 - align then", "if size <? two63 - align then", "the largest layout is accepted", "C30")
m("padding_needed_for", "LayoutModel", "(wrapping_sub ((len + align) mod two64) 1) (align - 1)", "((len + align) mod two64) (align - 1)", "padding is minimal", "C30")
m("layout_extend", "LayoutModel", "let align := N.max (l_align l) (l_align next) in", "let align := l_align l in", "the block is aligned for its content", "C30")
m("layout_extend", "LayoutModel", "let offset := l_size l + padding_needed_for (l_size l) (l_align next) in", "let offset := l_size l in", "the value is aligned behind the counters", "C30")
m("layout_pad_to_align", "LayoutModel", "mkLayout (l_size l + padding_needed_for (l_size l) (l_align l)) (l_align l)", "mkLayout (l_size l + l_align l) (l_align l)", "padding is minimal", "C30")
m("layout_array", "LayoutModel", "Some (mkLayout (sz * n) al)", "Some (mkLayout (sz + n) al)", "array size = element size * length", "C30")
m("arc_inner_repr_layout", "LayoutModel", "arc_inner_repr_layout : layout := mkLayout 8 8", "arc_inner_repr_layout : layout := mkLayout 16 8", "triomphe Arcs have one counter", "C30")
m("repr_c", "LayoutModel", "mkLayout (round_up (l_size l) (l_align l)) (l_align l).", "l.", "repr(C) size is a multiple of the alignment", "C30")
m("repr_c_add", "LayoutModel", "mkLayout (round_up (l_size l) (l_align f) + l_size f) (N.max", "mkLayout (l_size l + l_size f) (N.max", "repr(C) fields are aligned", "C30")
m("next_power_of_two", "LayoutModel", "if n <=? 1 then 1 else", "if n <=? 1 then 2 else", "(equivalent: only called for len >= 4)")
m("raw_table_alloc_size_for_len", "LayoutModel", "umul m entry buckets.", "umul m entry len.", "buckets, not entries, are allocated", "C31")
m("bump_counters", "LayoutModel", "wrapping_sub allocated used", "wrapping_sub used allocated", "unused = allocated - used", "C40")
# --- Impl
m("impl_leaf", "ImplModel", "v_simple_sized (t_name t) (t_size t)", "VRet", "leaves report their size", "C45", "C46")
m("impl_os_str", "ImplModel", "v_simple (key_new \"OsStr\") n", "v_simple (key_new \"OsStr\") (2 * n)", "an OsStr has its byte length", "C45")
m("impl_struct", "ImplModel", "enter_self t (fields names cs).", "vseq (enter_self t VRet) (fields names cs).", "fields are below their struct", "C35", "C45")
m("impl_enum", "ImplModel", "| None => VRet\n    | Some (v, names)", "| None => VCrash\n    | Some (v, names)", "unit variants are visited", "C45")
m("impl_index_set", "ImplModel", "(unused_capacity m cap (len cs) (t_size e)))\n       (add_raw_table_for_len m (len cs))", "(unused_capacity m (len cs) cap (t_size e)))\n       (add_raw_table_for_len m (len cs))", "unused = capacity - len (swapped arguments)", "C33", "C45")
m("impl_index_set", "ImplModel", "(vseq (fields_named (key_new \"value\") cs)\n             (unused_capacity", "(vseq VRet\n             (unused_capacity", "elements of an IndexSet are visited", "C33")
m("impl_json_map", "ImplModel", "(VUnique (key_new \"data\") ptr_size (fields_kv (key_new \"key\") (key_new \"value\") cs) VRet)", "(VInline (key_new \"data\") ptr_size (fields_kv (key_new \"key\") (key_new \"value\") cs) VRet)", "entries of a JSON object are heap data", "C33")
m("impl_dash_set", "ImplModel", "(usaturating_sub cap (len cs))", "cap", "unused excludes used", "C33", "C35")
m("impl_dash_set", "ImplModel", "(vseq (fields_named DATA_NAME cs)\n                  (with_val", "(vseq (fields_named KEY_NAME cs)\n                  (with_val", "DashSet elements are reported as data", "C46")
m("impl_hash_table", "ImplModel", "raw_table_alloc_size_for_len m (t_size e) cap", "raw_table_alloc_size_for_len m (t_size e) (len cs)", "(sized by capacity)", "C46", "C33")
m("pair_up", "ImplModel", "(k, v) :: pair_up l'", "(v, k) :: pair_up l'", "keys under 'key', values under 'value'", "C46")
m("impl_map", "ImplModel", "enter_self t (v_generic_map_fields (pair_up cs))", "enter_self t VRet", "keys and values of maps are visited", "C34", "C46")
m("impl_set", "ImplModel", "enter_self t (v_generic_set_fields cs)", "enter_self t (v_generic_set_fields (firstn 1 cs))", "all elements of a set are visited", "C34", "C46")
m("impl_bump", "ImplModel", "vseq (v_simple DATA_NAME used) (v_simple UNUSED_CAPACITY_NAME unused)", "vseq (v_simple DATA_NAME unused) (v_simple UNUSED_CAPACITY_NAME used)", "used and unused bytes are told apart", "C40", "C46")
m("impl_vec_deque", "ImplModel", "Definition impl_vec_deque (m : mode) (t e : tinfo) (front : nat) (cap : N) (cs : list sub) : vprog :=\n  enter_self t\n    (if negb (cap =? 0)", "Definition impl_vec_deque (m : mode) (t e : tinfo) (front : nat) (cap : N) (cs : list sub) : vprog :=\n  enter_self t\n    (if negb (len cs =? 0)", "(an empty VecDeque with capacity is counted)", "C32")
m("impl_path_buf", "ImplModel", "(with_val (usub m cap n) (v_simple UNUSED_CAPACITY_NAME))) VRet\n     else VRet", "(with_val (usub m n cap) (v_simple UNUSED_CAPACITY_NAME))) VRet\n     else VRet", "PathBuf with spare capacity is visited without panic", "C45", "C32")
m("impl_once", "ImplModel", "if available then vseqs (map snd cs) else VRet", "if available then VRet else vseqs (map snd cs)", "initialised content is visited, uninitialised is not", "C36", "C33")
m("impl_shared_ptr", "ImplModel", "enter_self t (VShared PTR_NAME ps x (pointee x) VRet VRet)", "enter_self t (VShared PTR_NAME ps x VRet VRet VRet)", "the pointee of a shared pointer is visited", "C43", "C44")
m("impl_weak", "ImplModel", "impl_shared_ptr pointee t' ps x\n    | None => VRet\n    end.", "impl_shared_ptr pointee t' ps x\n    | None => VCrash\n    end.", "a dead Weak is visited without panic", "C37", "C45")
m("visit_inner", "ImplModel", "| InThin tn h sz al n => with_val (thin_arc_size h sz al n)\n                 (fun s => VInline (key_for_type_name tn) s (field (key_new \"data\") c) VRet)", "| InThin tn h sz al n => with_val (thin_arc_size h sz al n)\n                 (fun s => VInline (key_for_type_name tn) s VRet VRet)", "the content of a ThinArc is visited", "C46")
m("visit_inner", "ImplModel", "| InRc a => with_val (rcbox_layout_size (mkLayout (fst c) a))\n                 (fun s => VInline (key_new \"RcInner\") s (snd c) VRet)", "| InRc a => with_val (rcbox_layout_size (mkLayout (fst c) a))\n                 (fun s => VUnique (key_new \"RcInner\") s (snd c) VRet)", "Rc content is inline in its block", "C44", "C46")
m("visit_inner", "ImplModel", "| InBare => snd c", "| InBare => field (key_new \"data\") c", "the result of a Shared future is reported directly", "C44", "C46")
m("visit_shape", "ImplModel", "| SIndexMap t e cap => impl_index_map m t e (len cs / 2) cap cs", "| SIndexMap t e cap => impl_index_map m t e (len cs) cap cs", "an IndexMap has one entry per key", "C33", "C45")
m("visit_shape", "ImplModel", "| SOsStr n => impl_os_str n", "| SOsStr n => impl_str n", "OsStr is reported under its own name", "C46")
m("visit_in", "ImplModel", "| Some (i, w) => visit_inner i (size_of_val w, visit_in m n' h w)", "| Some (i, w) => visit_inner i (0, visit_in m n' h w)", "the pointee's size is size_of_val of it", "C44")
m("find_obj", "ImplModel", "if N.eqb x y then Some o else find_obj h' x", "if N.leb x y then Some o else find_obj h' x", "a pointer leads to its own allocation", "C44", "C43")
# --- Derive
m("parse_args", "DeriveModel", "| TPathSep :: TAngle g :: r => (Some (true, g), r)", "| TPathSep :: TAngle g :: r => (Some (false, g), r)", "turbofish in visit = path is kept", "C27")
m("parse_segment", "DeriveModel", "else if String.eqb s \"Self\" then", "else if String.eqb s \"self\" then", "visit = Self::f is accepted", "C27")
m("parse_path_rest", "DeriveModel", "do y <- parse_path_rest fuel' (snd x);\n          Some (fst x :: fst y, snd y)", "do y <- parse_path_rest fuel' (snd x);\n          Some (fst y, snd y)", "all segments of a visit path are kept", "C27")
m("parse_path", "DeriveModel", "match ts with TPathSep :: r => (true, r) | _ => (false, ts) end", "match ts with TPathSep :: r => (false, r) | _ => (false, ts) end", "a leading :: is kept", "C27")
m("parse_item", "DeriveModel", "| _ => Some (o, ts)\n  end.", "| _ => None\n  end.", "empty items (trailing commas) are accepted", "C27")
m("parse_item", "DeriveModel", "match aa_visit o with\n          | Some _ => None\n", "match aa_visit o with\n          | Some w => Some (o, snd x)\n", "duplicate visit rejected", "C27")
m("extract_attrs_from", "DeriveModel", "do o' <- parse_items (S (length ts)) o ts; extract_attrs_from o' l'", "do o' <- parse_items (S (length ts)) aattrs_default ts; extract_attrs_from o' l'", "several #[allocative] attributes accumulate", "C27")
m("extract_attrs_from", "DeriveModel", "do o' <- parse_items (S (length ts)) o ts; extract_attrs_from o' l'", "parse_items (S (length ts)) o ts", "all attributes are read", "C27")
m("gen_visit_fields", "DeriveModel", "(enumerate 0 l);\n      Some (concat ss)", "(enumerate 1 l);\n      Some (concat ss)", "tuple fields are labelled from 0", "C26", "C28")
m("gen_visit_field", "DeriveModel", "| None => Some [VisitField (fd_ty f) field_key ident]", "| None => Some [VisitField \"Self\" field_key ident]", "fields are visited at their declared type", "C28")
m("gen_visit_struct", "DeriveModel", "Some (LetPattern (binder_names fs) :: body)", "Some (body ++ [LetPattern (binder_names fs)])", "fields are bound before they are visited", "C26", "C28")
m("gen_visit_enum_variant", "DeriveModel", "let variant_key := derive_key (vd_name v) in", "let variant_key := derive_key \"variant\" in", "a variant is reported under its name", "C26")
m("gen_visit_enum", "DeriveModel", "| [] => Some []\n  | _ => Some [Match arms]", "| [] => None\n  | _ => Some [Match arms]", "empty enums are supported", "C26")
m("gen_visit_enum", "DeriveModel", "| _ => Some [Match arms]", "| a :: _ => Some [Match [a]]", "every variant has an arm", "C26")
m("impl_generics", "DeriveModel", "| GConst n t d => GConst n t d", "| GConst n t d => GType n [] None", "const parameters stay const parameters", "C29")
m("impl_generics", "DeriveModel", "if lexes b then Some (HText b) else None", "Some (HText b)", "a bound that does not lex is an error", "C26", "C29")
m("derive_allocative_impl", "DeriveModel", "do body <- (if aa_skip at_ then Some [] else gen_visit_body (di_data i));", "do body <- gen_visit_body (di_data i);", "skip on the type skips all fields", "C26")
m("lower_char", "DeriveModel", "if (65 <=? n) && (n <=? 90) then", "if (65 <=? n) && (n <? 90) then", "every upper-case letter is lowered (Z)", "C42")
m("ident_char", "DeriveModel", "|| (n =? 95) || (128 <=? n).", "|| (n =? 95) || (n =? 35) || (128 <=? n).", "raw identifiers are rejected at compile time", "C42")
# --- Identity
m("identity", "IdentityModel", "| InArc al | InRc al => a_base a + round_up 16 al", "| InArc al | InRc al => a_base a", "(identity at the block start: also distinct)")
m("identity", "IdentityModel", "| InTriomphe _ | InThin _ _ _ _ _ => a_base a", "| InTriomphe _ | InThin _ _ _ _ _ => 0", "live allocations have distinct identities", "C47")
m("identity", "IdentityModel", "| InArc al | InRc al => a_base a + round_up 16 al", "| InArc al | InRc al => a_base a + block_size a", "an identity is inside the allocation", "C47")
m("store_of", "IdentityModel", "(identity a, (a_inner a, a_value a))", "(a_base a, (a_inner a, a_value a))", "a pointer leads to its own allocation", "C47")
# --- Lock
m("available", "LockModel", "| Exclusive => held s = []", "| Exclusive => True", "content is read under an exclusive guard only when nobody else holds one", "C49")
m("release", "LockModel", "mkLock (remove_guard o a (held (locks s l)))", "mkLock (held (locks s l))", "guards are released", "C49")
m("l_cell", "LockModel", "(LTry l a (LInline DATA_NAME (fst content) (snd content) LRet) LRet) LRet.", "(LWait l a (LInline DATA_NAME (fst content) (snd content) LRet) LRet) LRet.", "a visit never waits for a Mutex", "C49")
m("l_cell", "LockModel", "(LTry l a (LInline DATA_NAME (fst content) (snd content) LRet) LRet) LRet.", "(LInline DATA_NAME (fst content) (snd content) LRet) LRet.", "content is visited under its guard only", "C49")
m("l_weak", "LockModel", "(LUpgrade x arc LRet) LRet.", "arc LRet.", "a dead Weak is not followed", "C49")
m("vstep.s_unwind_unlock", "LockModel", "(mkConf (release s l Visit a (std l && access_eqb a Exclusive)) b Unwind st)", "(mkConf s b Unwind st)", "guards are released on unwind", "C49")
m("vstep.s_unlock", "LockModel", "(mkConf (release s l Visit a false) b (Exec rest) st)", "(mkConf (release s l Visit a true) b (Exec rest) st)", "a visit that does not panic poisons nothing", "C49")
m("vstep.s_drop_arc", "LockModel", "| s_drop_arc s b x rest st :\n    vstep m std (mkConf s b (Exec LRet) (FArc x rest :: st))\n      (mkConf (set_strong s x (remove_one owner_eqb Visit (strong s x))) b (Exec rest) st)", "| s_drop_arc s b x rest st :\n    vstep m std (mkConf s b (Exec LRet) (FArc x rest :: st))\n      (mkConf s b (Exec rest) st)", "upgraded references are dropped", "C49")
m("vstep.s_try", "LockModel", "| s_try s b l a body rest st : available (locks s l) a -> poisoned (locks s l) = false ->", "| s_try s b l a body rest st :", "content is read only under a valid guard", "C49")
m("vstep.s_unwind_unlock", "LockModel", "(std l && access_eqb a Exclusive)", "true", "only std exclusive guards poison", "C49")
# --- Change
m("calls", "ChangeModel", "| Some c => CVisit c (calls cs r)", "| Some c => CVisit c CRet", "everything after a contained value is visited", "C52")
m("pointer_calls", "ChangeModel", "| VInline k s b r => CInline k s (pointer_calls b) (pointer_calls r)", "| VInline k s b r => CInline k s CRet (pointer_calls r)", "shared pointers are followed", "C52")
m("implementation", "ChangeModel", "(CTry l a true CRet) CRet\n", "(CTry l a false CRet) CRet\n", "content of a lock is shown under data", "C52")
m("implementation", "ChangeModel", "(CTry l a true CRet) CRet\n", "(CTry l ReadOnly true CRet) CRet\n", "the content of a Mutex is that of a moment at which nobody held it", "C52")
m("implementation", "ChangeModel", "(CTry l ReadOnly false CRet) CRet", "(CTry l ReadOnly true CRet) CRet", "the content of a once cell is visited directly", "C52")
m("implementation", "ChangeModel", "(CUpgrade x (pointer_calls (impl_shared_ptr unseen t' ps x)) CRet) CRet", "(pointer_calls (impl_shared_ptr unseen t' ps x)) CRet", "a dead Weak is not followed", "C52")
m("implementation", "ChangeModel", "(CUpgrade x (pointer_calls (impl_shared_ptr unseen t' ps x)) CRet) CRet", "CRet CRet", "a live Weak is followed", "C52")
m("opened", "ChangeModel", "CInline DATA_NAME (msize c) (CVisit c CRet) CRet", "CInline DATA_NAME 0 (CVisit c CRet) CRet", "data has the size of the content", "C52")
m("opened", "ChangeModel", "else CVisit c CRet.", "else CRet.", "content of a once cell is visited", "C52")
m("behind", "ChangeModel", "calls [v] (visit_inner i (msize v,", "calls [v] (visit_inner i (0,", "ArcInner has the size of the allocation", "C52")
m("behind", "ChangeModel", "| None => CCrash", "| None => CRet", "(a pointer always leads to an allocation)")
m("cstep.k_exit", "ChangeModel", "(mkC g b' (Run rest) st)\n| k_exit_abort", "(mkC g b' (Run CRet) st)\n| k_exit_abort", "what follows a scope is visited", "C52")
m("cstep.k_exit", "ChangeModel", "| k_exit g b b' rest st : exit_impl b = (b', Fine) ->\n    cstep m std (mkC g b (Run CRet) (KScope rest :: st)) (mkC g b' (Run rest) st)", "| k_exit g b b' rest st : exit_impl b = (b', Fine) ->\n    cstep m std (mkC g b (Run CRet) (KScope rest :: st)) (mkC g b (Run rest) st)", "scopes are left", "C52")
m("cstep.k_unlock", "ChangeModel", "(mkC (set_shared_state g (release (m_shared g) l Visit a false)) b (Run rest) st)", "(mkC g b (Run rest) st)", "guards are released", "C52")
m("cstep.k_drop_arc", "ChangeModel", "(set_strong (m_shared g) x (remove_one owner_eqb Visit (strong (m_shared g) x)))) b (Run rest) st)", "(m_shared g)) b (Run rest) st)", "upgraded references are dropped", "C52")
m("cstep.k_unwind_unlock", "ChangeModel", "(mkC (set_shared_state g (release (m_shared g) l Visit a (std l && access_eqb a Exclusive))) b Unwinds st)", "(mkC g b Unwinds st)", "guards are released on unwind", "C52")
m("cstep.k_try", "ChangeModel", "| k_try g b l a field rest st : available (locks (m_shared g) l) a -> poisoned (locks (m_shared g) l) = false ->", "| k_try g b l a field rest st :", "content of a lock is read only when it can be taken", "C52")
m("cstep.k_try", "ChangeModel", "| k_try g b l a field rest st : available (locks (m_shared g) l) a -> poisoned (locks (m_shared g) l) = false ->", "| k_try g b l a field rest st : available (locks (m_shared g) l) a ->", "content of a poisoned lock is not read", "C52")
m("cstep.k_try", "ChangeModel", "(mkC (set_shared_state g (acquire (m_shared g) l Visit a)) b (Run (opened field (m_content g l))) (KGuard l a rest :: st))", "(mkC g b (Run (opened field (m_content g l))) (KThen rest :: st))", "(the guard is kept while the content is visited: caught by the shape of C52_guarded only if frames remain)", "C52")
m("cstep.k_try", "ChangeModel", "(mkC (set_shared_state g (acquire (m_shared g) l Visit a)) b", "(mkC g b", "inside a lock the visit has its guard", "C52")
m("cstep.k_try_fails", "ChangeModel", "| k_try_fails g b l a field rest st : held (locks (m_shared g) l) <> [] \\/ poisoned (locks (m_shared g) l) = true ->", "| k_try_fails g b l a field rest st :", "a lock is skipped only if it was held or poisoned", "C52")
m("cstep.k_try_fails", "ChangeModel", "(mkC g b (Run (CTry l a field rest)) st) (mkC g b (Run rest) st)\n(* [upgrade] *)", "(mkC g b (Run (CTry l a field rest)) st) (mkC g b Unwinds st)\n(* [upgrade] *)", "a held lock does not make the visit panic", "C52")
m("cstep.k_try_fails", "ChangeModel", "| k_try_fails g b l a field rest st : held (locks (m_shared g) l) <> [] \\/ poisoned (locks (m_shared g) l) = true ->", "| k_try_fails g b l a field rest st : poisoned (locks (m_shared g) l) = true ->", "the visit does not wait for locks", "C52")
m("cstep.k_upgrade", "ChangeModel", "| k_upgrade g b x body rest st : strong (m_shared g) x <> [] ->", "| k_upgrade g b x body rest st :", "a dead Weak is not followed", "C52")
m("cstep.k_upgrade_dead", "ChangeModel", "| k_upgrade_dead g b x body rest st : strong (m_shared g) x = [] ->", "| k_upgrade_dead g b x body rest st :", "a live Weak is followed", "C52")
m("cstep.k_shared", "ChangeModel", "(Run (behind (m_object g x))) (KScope rest :: st))", "(Run (behind (m_object g 0))) (KScope rest :: st))", "a pointer leads to its own allocation", "C52")
m("cstep.k_shared_again", "ChangeModel", "(Run (CShared k n x rest)) st) (mkC g b' (Run rest) st)", "(Run (CShared k n x rest)) st) (mkC g b' (Run (behind (m_object g x))) (KThen rest :: st))", "an allocation is visited once", "C52")
m("cstep.k_visit", "ChangeModel", "(mkC g b (Run (implementation m v)) (KThen rest :: st)).", "(mkC g b (Run (implementation m v)) st).", "what follows a contained value is visited", "C52")
m("cstep.k_unwind_then", "ChangeModel", "(KThen rest :: st)) (mkC g b Unwinds st)", "(KThen rest :: st)) (mkC g b (Run rest) st)", "a panic is not swallowed", "C52")
m("change.ch_write", "ChangeModel", "| ch_write g l t v : In (Other t, Exclusive) (held (locks (m_shared g) l)) ->", "| ch_write g l (t : nat) v :", "(other code) content changes only under exclusive access", "C52")
m("change.ch_write", "ChangeModel", "| ch_write g l t v : In (Other t, Exclusive) (held (locks (m_shared g) l)) ->", "| ch_write g l t v : In (Other t, ReadOnly) (held (locks (m_shared g) l)) ->", "(other code) content changes only under exclusive access", "C52")
m("profiles.pr_visit", "ChangeModel", "leave_scope (result c) = (b2, o2) -> o2 <> Aborted ->\n    profiles M m std (k_mem c) b2 vs b' o calm ->", "result c = (b2, o2) -> o2 <> Aborted ->\n    profiles M m std (k_mem c) b2 vs b' o calm ->", "the root visitor is dropped after each root", "C52")
m("profiles.pr_visit", "ChangeModel", "profiles M m std (k_mem c) b2 vs b' o calm ->", "profiles M m std (k_mem c) b1 vs b' o calm ->", "the entries of a root are kept", "C52")
m("outline", "ChangeModel", "| MLock t _ _ => Node (SCell t false) []\n  | MOnce", "| MLock t _ _ => Node (SSlice (mkT \"x\" 0 false)) []\n  | MOnce", "a lock is announced with its size", "C52")
m("plug", "SnapshotModel", "lseq (nth (N.to_nat i) ls LRet) (plug ls r)", "nth (N.to_nat i) ls LRet", "everything after a contained value is visited", "C51")
m("plug", "SnapshotModel", "lseq (nth (N.to_nat i) ls LRet) (plug ls r)", "plug ls r", "contained values are visited", "C51")
m("placeholders", "SnapshotModel", ":: placeholders (N.succ i) sizes'", ":: placeholders i sizes'", "each contained value is visited", "C51", "C52")
m("embed", "SnapshotModel", "LShared k s x (pointee x) (embed pointee r1) (embed pointee r2)", "LShared k s x LRet (embed pointee r1) (embed pointee r2)", "allocations are visited", "C51")
m("l_inner", "SnapshotModel", "match placeholders 0 [fst c] with", "match placeholders 0 [0] with", "ArcInner has the size of the allocation", "C51")
m("l_once", "SnapshotModel", "(LTry l ReadOnly content LRet) LRet.", "(LTry l Exclusive content LRet) LRet.", "(once cells have no exclusive guard)")
m("l_once", "SnapshotModel", "(LTry l ReadOnly content LRet) LRet.", "content LRet.", "an unset cell has no content", "C51")
m("l_visit", "SnapshotModel", "| LLock t l a c => l_cell t l a (lsize c, l_visit m pointee c)", "| LLock t l a c => l_cell t l a (0, l_visit m pointee c)", "data has the size of the content", "C51")
m("l_visit", "SnapshotModel", "| LWeak t t' ps x => l_weak t x (embed pointee (impl_shared_ptr unseen t' ps x))", "| LWeak t t' ps x => embed pointee (impl_weak unseen t (Some (t', ps, x)))", "a dead Weak is not followed", "C51")
m("l_visit_in", "SnapshotModel", "match find_lobj h x with", "match find_lobj h 0 with", "a pointer leads to its own allocation", "C51")
m("lsize", "SnapshotModel", "size_of_val (quiet v)", "0", "sizes of contained values", "C51")
m("session.ses_visit", "SnapshotModel", "leave_scope (result_of c) = (b2, o2) -> o2 <> Aborted ->", "result_of c = (b2, o2) -> o2 <> Aborted ->", "the root visitor is dropped after each root", "C51")
m("session.ses_refused", "SnapshotModel", "session m std s b1 ps b' o -> session m std s b (p :: ps) b' o\n| ses_visit", "session m std s b1 [] b' o -> session m std s b (p :: ps) b' o\n| ses_visit", "(later roots are visited after a refused one)", "C51")
# --- wave 4: DashModel (C53), guards (C49)
m("guarded", "DashModel", "match d_point d with PEntry i _ => Some i | _ => None end.", "None.", "(other code) entries being iterated over cannot change", "C53")
m("guarded", "DashModel", "match d_point d with PEntry i _ => Some i | _ => None end.", "match d_point d with PEntry i _ => Some (S i) | _ => None end.", "the guard is that of the shard being iterated over", "C53")
m("visit_step", "DashModel", "| None => Some (d_goto d (PNext (S i)))", "| None => Some (d_goto d (PNext (S (S i))))", "a key that stays is visited", "C53")
m("visit_step", "DashModel", "| None => Some (d_goto d (PNext (S i)))", "| None => Some (d_goto d (PNext i))", "the visit ends; no key twice", "C53")
m("visit_step", "DashModel", "(PEntry i (S j)))", "(PEntry i (S (S j))))", "a key that stays is visited", "C53")
m("visit_step", "DashModel", "| Some _ => Some (d_goto d (PEntry i 0))", "| Some _ => Some (d_goto d (PEntry i 1))", "a key that stays is visited", "C53")
m("visit_step", "DashModel", "| None => Some (d_goto d (PCap2 0 0))", "| None => Some (d_goto d PLeave)", "unused capacity is recorded", "C53")
m("visit_step", "DashModel", "Some (d_calc d (uadd m acc (sh_cap sh)) (fun a => d_goto d (PCap2 (S i) a)))", "Some (d_calc d (uadd m acc (sh_cap sh)) (fun a => d_goto d (PCap2 (S i) acc)))", "capacity is the sum over the shards", "C53")
m("visit_step", "DashModel", "Some (d_calc d (uadd m acc (len (sh_entries sh))) (fun a =>", "Some (d_calc d (uadd m acc (sh_cap sh)) (fun a =>", "unused = capacity - length", "C53")
m("visit_step", "DashModel", "| None => Some (d_goto d (PLen acc 0 0))", "| None => Some (d_goto d (PLen acc 1 0))", "the length is that of all shards", "C53")
m("visit_step", "DashModel", "umul m (usaturating_sub c n) (t_size e)", "umul m (usaturating_sub n c) (t_size e)", "unused = capacity - length", "C53")
m("visit_step", "DashModel", "(enter_unique m (d_builder d) PTR_NAME ptr_size)", "(enter_inline m (d_builder d) PTR_NAME ptr_size)", "the table is behind a pointer", "C53")
m("visit_step", "DashModel", "d_enter d (enter_inline m (d_builder d) CAPACITY_NAME total) (PNext 0)", "d_enter d (enter_inline m (d_builder d) CAPACITY_NAME total) (PCap2 0 0)", "entries are visited", "C53")
m("visit_entry", "DashModel", "vseq (field KEY_NAME (en_key en)) (field VALUE_NAME (en_val en))", "field KEY_NAME (en_key en)", "values are visited", "C53")
m("visit_entry", "DashModel", "(field VALUE_NAME (en_val en))", "(field VALUE_NAME (en_key en))", "values are visited", "C53")
m("visit_entry", "DashModel", "| IsSet => field DATA_NAME (en_key en)", "| IsSet => field KEY_NAME (en_key en)", "elements are recorded under data", "C53")
m("d_panic", "DashModel", "mkD (d_shards d) PLeave (d_open d) b o.", "mkD (d_shards d) PStop (d_open d) b o.", "a panic leaves all scopes", "C53")
m("d_enter", "DashModel", "(b, Fine) => mkD (d_shards d) next (S (d_open d)) b (d_outcome d)", "(b, Fine) => mkD (d_shards d) next (d_open d) b (d_outcome d)", "all scopes are left", "C53")
m("d_run", "DashModel", "| (b, o) => d_panic d b o\n  end.\n\n(** Checked", "| (b, o) => mkD (d_shards d) next (d_open d) b (d_outcome d)\n  end.\n\n(** Checked", "a panic of an entry is not swallowed", "C53")
m("d_calc", "DashModel", "| None => d_panic d (d_builder d) Unwinding end.", "| None => d_panic d (d_builder d) Done end.", "overflow panics in debug mode", "C53")
m("others", "DashModel", "length shs = length (d_shards d) /\\", "(length (d_shards d) <= length shs)%nat /\\", "(the number of shards is fixed)", "C53")
m("vstep.s_try", "LockModel", "(mkConf (acquire s l Visit a) b (Exec body) (FGuard l a rest :: st))\n| s_try_fails", "(mkConf s b (Exec body) (FGuard l a rest :: st))\n| s_try_fails", "content is read only under a guard", "C49")
m("vstep.s_try", "LockModel", "(mkConf (acquire s l Visit a) b (Exec body) (FGuard l a rest :: st))\n| s_try_fails", "(mkConf (acquire s l Visit a) b (Exec (lseq body rest)) st)\n| s_try_fails", "guards are released", "C49")
m("vstep.s_try", "LockModel", "(mkConf (acquire s l Visit a) b (Exec body) (FGuard l a rest :: st))\n| s_try_fails", "(mkConf s b (Exec (lseq body rest)) st)\n| s_try_fails", "content is read only under a guard", "C49")
m("vstep.s_upgrade", "LockModel", "(mkConf (set_strong s x (Visit :: strong s x)) b (Exec body) (FArc x rest :: st))", "(mkConf s b (Exec (lseq body rest)) st)", "what a Weak points to is kept alive", "C49")
m("cstep.k_upgrade", "ChangeModel", "(mkC (set_shared_state g (set_strong (m_shared g) x (Visit :: strong (m_shared g) x))) b (Run body) (KArc x rest :: st))", "(mkC g b (Run body) (KThen rest :: st))", "what a Weak points to is kept alive", "C52")
# --- wave 5: helpers and definitions no earlier mutant touched
m("extract_attrs", "DeriveModel", "extract_attrs_from aattrs_default l.", "extract_attrs_from (mkAttrs true None None) l.", "without attributes every field is visited", "C36")
m("aattrs_default", "DeriveModel", "Definition aattrs_default : aattrs := mkAttrs false None None.", "Definition aattrs_default : aattrs := mkAttrs false (Some \"\"%string) None.", "bounds are added when no bound attribute is given", "C37")
m("is_one_of", "DeriveModel", "existsb (String.eqb s) l.", "negb (existsb (String.eqb s) l).", "the paths accepted in visit = ...", "C36")
m("omap", "DeriveModel", "do b <- f a; do bs <- omap f l'; Some (b :: bs)", "do b <- f a; do bs <- omap f l'; Some bs", "every field is visited", "C31")
m("omap", "DeriveModel", "do b <- f a; do bs <- omap f l'; Some (b :: bs)", "match f a with Some b => do bs <- omap f l'; Some (b :: bs) | None => omap f l' end", "a malformed attribute is an error", "C36")
m("enumerate", "DeriveModel", "(i, a) :: enumerate (i + 1) l'", "(i, a) :: enumerate i l'", "tuple fields have their own index", "C31")
m("enumerate", "DeriveModel", "(i, a) :: enumerate (i + 1) l'", "(i + 1, a) :: enumerate (i + 1) l'", "tuple fields are named from 0", "C31")
m("binder_names", "DeriveModel", "| FUnnamed l => map (fun x => unnamed_name (fst x)) (enumerate 0 l)\n  | FUnit => []", "| FUnnamed l => map (fun x => unnamed_name (fst x)) (enumerate 1 l)\n  | FUnit => []", "the pattern binds the names that are visited", "C31")
m("lookup", "DeriveModel", "if String.eqb x y then Some a else lookup env' x", "match lookup env' x with Some b => Some b | None => if String.eqb x y then Some a else None end", "(inner bindings shadow outer ones)", "C31", "C32")
m("visitor_ok", "DeriveModel", "| Some (LVisitor d) => Nat.eqb d depth\n  | _ => false", "| Some (LVisitor d) => true\n  | _ => false", "(borrow checker: only the innermost visitor is usable)", "C32")
m("callable", "DeriveModel", "match lookup env s with Some _ => false | None => true end", "true", "(a local variable is not a function)", "C32")
m("has_dup", "DeriveModel", "existsb (String.eqb x) l' || has_dup l'", "has_dup l'", "(rustc: a name is bound once)", "C32")
m("bad_pattern", "DeriveModel", "existsb (dc_consts d) names || has_dup names.", "has_dup names.", "(rustc: constants in patterns)", "C32")
m("check", "DeriveModel", "| Some ty' => if String.eqb ty ty' then Some st else None", "| Some ty' => Some st", "(rustc: the visited field has the named type)", "C32")
m("check", "DeriveModel", "match depth with O => None | S depth' => Some (env, depth') end", "match depth with O => None | S depth' => Some (env, depth) end", "(a visitor that was exited is gone)", "C32")
m("r_emit", "DeriveModel", "| (k, s, q) :: o => mkR (rs_env r) ((k, s, vseq q p) :: o) (rs_done r)", "| (k, s, q) :: o => mkR (rs_env r) ((k, s, vseq p q) :: o) (rs_done r)", "fields are visited in declaration order", "C31")
m("r_close", "DeriveModel", "| (k, s, q) :: o => r_emit (VInline k s q VRet) (mkR (rs_env r) o (rs_done r))", "| (k, s, q) :: o => mkR (rs_env r) o (rs_done r)", "what was visited in a scope is recorded", "C31")
m("r_open", "DeriveModel", "((k, s, VRet) :: rs_open r) (rs_done r).", "((k, 0, VRet) :: rs_open r) (rs_done r).", "scopes have their size", "C31")
m("exec.LetEnter", "DeriveModel", "match sz with SizeSelf => t_size (sj_type j) | SizeTy ty => sj_size j ty end", "match sz with SizeSelf => t_size (sj_type j) | SizeTy ty => t_size (sj_type j) end", "a field with visit = has the size of its type", "C31")
m("exec.CallVisit", "DeriveModel", "Some (r_emit (sj_custom j f i) r)", "Some (r_emit (sj_custom j f 0%nat) r)", "the custom function gets its field", "C31")
m("exec.Match", "DeriveModel", "if String.eqb v (sj_variant j) then", "if negb (String.eqb v (sj_variant j)) then", "the active variant is visited", "C31")
m("run_derived", "DeriveModel", "Some (rs_done (r_leave r0 r)).", "Some (rs_done r).", "(scopes still open at the end are dropped)", "C31")
m("to_lowercase", "DeriveModel", "String (lower_char c) (to_lowercase s')", "String c (to_lowercase s')", "the name of the generated function", "C38")
m("ident_new", "DeriveModel", "if all_chars ident_char s then Some s else None.", "Some s.", "a raw identifier is refused", "C38")
m("all_chars", "DeriveModel", "f c && all_chars f s'", "f c || all_chars f s'", "(the generated name is an identifier)", "C38")
m("set_lock", "LockModel", "if N.eqb l' l then x else locks s l'", "x", "locks are independent", "C49", "C52")
m("set_strong", "LockModel", "if N.eqb y x then os else strong s y", "os", "allocations are independent", "C49", "C52")
m("owner_eqb", "LockModel", "Visit, Visit => true | Other t, Other u => Nat.eqb t u | _, _ => false end.", "Visit, Visit => true | Other t, Other u => Nat.eqb t u | _, _ => true end.", "the visit releases its own guard", "C49", "C52")
m("access_eqb", "LockModel", "Exclusive, Exclusive | ReadOnly, ReadOnly => true | _, _ => false end.", "Exclusive, Exclusive | ReadOnly, ReadOnly => true | _, _ => true end.", "only exclusive std guards poison; the right guard is released", "C49", "C52")
m("remove_one", "LockModel", "if eqb x y then l' else y :: remove_one eqb x l' end.", "if eqb x y then remove_one eqb x l' else y :: remove_one eqb x l' end.", "one guard is released at a time", "C49", "C52")
m("acquire", "LockModel", "(mkLock ((o, a) :: held (locks s l)) (poisoned (locks s l))).", "(mkLock ((o, a) :: held (locks s l)) false).", "the visit does not clear poison", "C49", "C52")
m("lseq", "LockModel", "| LTry l a b r => LTry l a b (lseq r q)", "| LTry l a b r => LTry l a (lseq b q) r", "what follows a lock is visited when it is held", "C49", "C51")
m("l_count", "LockModel", "LWait (fst s) ReadOnly LRet LRet) shards", "LWait (fst s) Exclusive LRet LRet) shards", "DashMap takes read locks only", "C49")
m("l_entries", "LockModel", "(LInline VALUE_NAME (fst (snd kv)) (snd (snd kv)) LRet)) es", "LRet) es", "the values of a DashMap are visited", "C49")
m("ostep.o_acquire", "LockModel", "| o_acquire s l t a : available (locks s l) a -> ostep s", "| o_acquire s l t a : ostep s", "(locks exclude each other)", "C49", "C52")
m("ostep.o_drop", "LockModel", "| o_drop s x t : In (Other t) (strong s x) ->", "| o_drop s x (t : nat) :", "(only existing references are dropped: an absent one removes nothing)", "C49")
m("upd", "BuilderModel", "| x :: l', S i' => x :: upd l' i' a", "| x :: l', S i' => a :: upd l' i' a", "one node changes at a time", "C01", "C03")
m("upd", "BuilderModel", "| _ :: l', O => a :: l'\n", "| _ :: l', O => a :: tl l'\n", "nodes are kept", "C01", "C03")
m("set_current", "BuilderModel", "Definition set_current b x := mkB (b_visited b) (b_trees b) x (b_shared b) (b_root b) (b_entered b).", "Definition set_current b x := mkB (b_visited b) (b_trees b) x [] (b_root b) (b_entered b).", "entering keeps the suspended stacks", "C02", "C01")
m("set_shared", "BuilderModel", "Definition set_shared b x := mkB (b_visited b) (b_trees b) (b_current b) x (b_root b) (b_entered b).", "Definition set_shared b x := mkB [] (b_trees b) (b_current b) x (b_root b) (b_entered b).", "the set of visited pointers is kept", "C05")
m("set_entered", "BuilderModel", "Definition set_entered b x := mkB (b_visited b) (b_trees b) (b_current b) (b_shared b) (b_root b) x.", "Definition set_entered b x := mkB [] (b_trees b) (b_current b) (b_shared b) (b_root b) x.", "the set of visited pointers is kept between roots", "C05")
m("set_visited", "BuilderModel", "Definition set_visited b x := mkB x (b_trees b) (b_current b) (b_shared b) (b_root b) (b_entered b).", "Definition set_visited b (x : list ptr) := mkB (b_visited b) (b_trees b) (b_current b) (b_shared b) (b_root b) (b_entered b).", "a pointer is visited once", "C05")
m("bind_status", "BuilderModel", "| (b, Panicked) => (b, Panicked) end.", "| (b, Panicked) => f b end.", "(a panic is not swallowed)", "C01", "C25")
m("tree_get", "BuilderModel", "nth_error t id.", "nth_error t (id - 1).", "a node is found under its number", "C01")
m("upd", "GlobalModel", "if Nat.eqb t' t then x else f t'.", "x.", "(threads are independent)", "C39")
m("set_pc", "GlobalModel", "p (th_done (g_threads s t)))).", "p (S (th_done (g_threads s t))))).", "(operations are numbered)", "C39")
m("g_init", "GlobalModel", "mkG [] None (fun t => mkT (progs t) Idle 0).", "mkG [0] None (fun t => mkT (progs t) Idle 0).", "only registered roots are returned", "C39")
m("w_unlock", "GlobalModel", "mkW (w_roots w) false.", "mkW (w_roots w) true.", "register_root from a visit does not deadlock", "C40")
m("w_unlock", "GlobalModel", "mkW (w_roots w) false.", "mkW [] false.", "roots stay registered", "C40")
m("g_leave", "GlobalModel", "Some (w, leave_scope r).", "Some (w, r).", "the root visitor is dropped after each root", "C40")
m("field", "ImplModel", "Definition field (k : key) (c : sub) : vprog := v_field k (fst c) (snd c).", "Definition field (k : key) (c : sub) : vprog := v_field k 0 (snd c).", "fields have the size of their value", "C26", "C30")
m("field", "ImplModel", "Definition field (k : key) (c : sub) : vprog := v_field k (fst c) (snd c).", "Definition field (k : key) (c : sub) : vprog := v_field k (fst c) VRet.", "fields are visited", "C26", "C30")
m("fields_named", "ImplModel", "vseqs (map (field k) cs).", "vseqs (map snd cs).", "elements are under their key", "C26")
m("enter_self", "ImplModel", "v_enter_self (t_name t) (t_size t) body.", "v_enter_self (t_name t) ptr_size body.", "a value has its own size", "C26", "C30")
m("key_new_unchecked", "KeyModel", "(hash : N) (s : string) : key := mkKey hash s.", "(hash : N) (s : string) : key := mkKey 0 s.", "derived keys equal runtime keys", "C15")
m("key_new_opt", "KeyModel", "Definition key_new_opt (s : string) : option key :=\n  do h <- key_hash_fn s; Some (key_new_unchecked h s).", "Definition key_new_opt (s : string) : option key :=\n  do h <- key_hash_fn (s ++ \" \"); Some (key_new_unchecked h s).", "derived keys equal runtime keys", "C15")
m("key_deref", "KeyModel", "(a : key) : string := k_str a.", "(a : key) : string := (k_str a ++ \" \")%string.", "names are printed as they are", "C10", "C43")
m("derive_hash_loop", "KeyModel", "derive_hash_loop fuel' s (S i) hash", "derive_hash_loop fuel' s i hash", "the macro's hash equals the runtime one", "C15")
m("derive_key_opt", "KeyModel", "do h <- derive_hash s; Some (key_new_unchecked h s).", "do h <- derive_hash s; Some (key_new_unchecked h \"\"%string).", "derived keys equal runtime keys", "C15")
m("DATA_NAME", "KeyModel", "Definition DATA_NAME : key := key_new \"data\".", "Definition DATA_NAME : key := key_new \"ptr\".", "the name under which contents are reported", "C44")
m("VALUE_NAME", "KeyModel", "Definition VALUE_NAME : key := key_new \"value\".", "Definition VALUE_NAME : key := key_new \"key\".", "the name under which values are reported", "C44")
m("fg_children_size", "FlameModel", "N := let (_, c, _) := f in c.", "N := let (_, c, n) := f in n.", "total size", "C13")
m("fg_node_size", "FlameModel", "N := let (_, _, n) := f in n.", "N := let (_, c, n) := f in c.", "total size", "C13")
m("find_lobj", "SnapshotModel", "if N.eqb x y then Some o else find_lobj h' x", "Some o", "a pointer leads to its own allocation", "C51")
m("quiet", "SnapshotModel", "| LLock t _ _ c => Node (SCell t true) [quiet c]", "| LLock t _ _ c => Node (SCell t false) [quiet c]", "(the quiet value shows the content)", "C51")
m("l_shape", "SnapshotModel", "| _ => plug (map snd cs) (visit_shape m unseen s (placeholders 0 (map fst cs)))", "| _ => plug (rev (map snd cs)) (visit_shape m unseen s (placeholders 0 (map fst cs)))", "contained values are under their own names", "C51")
m("vseqs", "VisitorModel", "vseq p (vseqs l') end.", "p end.", "every element is visited", "C26", "C30")
m("vseqs", "VisitorModel", "vseq p (vseqs l') end.", "vseq (vseqs l') p end.", "(elements in order; the totals do not depend on it)")
m("allowed", "VisitorModel", "EvRoot => live = 0%nat | _ => (0 < live)%nat end.", "EvRoot => True | _ => (0 < live)%nat end.", "(borrow checker: one visitor at a time)", "C02", "C25")
m("live_after", "VisitorModel", "| EvExit | EvForget => pred live", "| EvExit | EvForget => live", "(an exited visitor is gone)", "C02", "C25")
m("is_forget", "VisitorModel", "EvForget => true | _ => false end.", "EvForget => true | _ => true end.", "(statements about leaks only)", "C25")
m("with_val", "VisitorModel", "Some n => f n | None => VCrash end.", "Some n => f n | None => f 0 end.", "overflow panics in debug mode", "C28")
m("v_field_with", "VisitorModel", "VInline k size visit VRet.", "VInline k size VRet visit.", "what a field contains is under the field", "C26", "C43")
m("v_slice", "VisitorModel", "v_iter m tn sz nd items.", "v_iter m tn sz true items.", "(slices of plain data are recorded at once)", "C26", "C28")
m("so_exit_shared", "SizeOfModel", "option N := None.", "option N := Some _size.", "(exit_shared is unreachable: no change)")
m("block_size", "IdentityModel", "| InTriomphe al => l_size (repr_c [usize_layout; mkLayout (size_of_val (a_value a)) al])", "| InTriomphe al => 0", "(size of the block, part of the memory description)", "C46")
m("d_start", "DashModel", "mkD shs PSelf 0 b Done.", "mkD shs (PNext 0) 0 b Done.", "the table is announced", "C53")
m("usaturating_sub", "Base", "Definition usaturating_sub (a b : N) : N := a - b.", "Definition usaturating_sub (a b : N) : N := b - a.", "unused = capacity - length", "C53", "C30")
m("isize_max", "Base", "Definition isize_max : Z := (Z.of_N two63 - 1)%Z.", "Definition isize_max : Z := (Z.of_N two63)%Z.", "saturation at the largest isize", "C27")
m("isize_min", "Base", "Definition isize_min : Z := (- Z.of_N two63)%Z.", "Definition isize_min : Z := 0%Z.", "negative remainders are kept", "C08")
m("str_len", "Base", "Definition str_len (s : string) : N := N.of_nat (String.length s).", "Definition str_len (s : string) : N := 1 + N.of_nat (String.length s).", "(byte length)")
m("concat_str", "Base", "| x :: l' => (x ++ concat_str l')%string\n  end.\n\n(** Sum", "| x :: l' => (concat_str l' ++ x)%string\n  end.\n\n(** Sum", "lines are sorted", "C09")
m("sumN", "Base", "match l with [] => 0 | x :: l' => x + sumN l' end.", "match l with [] => 1 | x :: l' => x + sumN l' end.", "(specification helper)", "C27")
m("begin", "ChangeModel", "mkC g b (Run (CVisit v CRet)) [].", "mkC g b (Run CRet) [].", "the root is visited", "C52")
m("msize", "ChangeModel", "N := size_of_val (outline v).", "N := 0.", "contained values have their size", "C52")
m("ended", "ChangeModel", "Run CRet, [] | Unwinds, [] | Lost, _ => True", "Run CRet, _ | Unwinds, [] | Lost, _ => True", "(a visit that returned has left every scope)", "C52")
m("result", "ChangeModel", "match k_control c with Run _ => Done | Unwinds => Unwinding | Lost => Aborted end", "match k_control c with Run _ => Done | Unwinds => Done | Lost => Aborted end", "(a panic of a visit is reported to the caller)", "C52")

# --- several profiles at the same time
m("seat", "PoolModel", "if Nat.eqb t i then Visit else Other t", "Other t", "a visit's guards are its own", "C54")
m("turn", "PoolModel", "same (view i s') s1 ->", "same (view i s') (view i s) ->", "two visits are never inside the same lock exclusively (acquiring has no effect on the shared state)", "C54")
m("turn", "PoolModel", "mkPool s' (upd vs i (mkVis b k st))", "mkPool s' (upd vs 0 (mkVis b k st))", "builders of different threads do not mix", "C54")
m("turn", "PoolModel", "vstep m std (mkConf (view i s) (v_builder v)", "vstep m std (mkConf (view i (mkShared (fun _ => mkLock [] false) (strong s))) (v_builder v)", "a visit sees the locks of the others (stale view)", "C54")
m("view", "PoolModel", "mkLock (map (fun x => (seat i (fst x), snd x)) (held (locks s l)))", "mkLock (map (fun x => (seat i (fst x), ReadOnly)) (held (locks s l)))", "exclusive guards of others keep a visit out", "C54")
m("view", "PoolModel", "(fun x => map (seat i) (strong s x))", "(fun x => [])", "what a Weak points to is alive for every visit", "C54")
m("outside", "PoolModel", "out_release s l t a p : (n <= t)%nat -> In", "out_release s l t a p : In", "other code does not release the guards of a visit", "C54")
m("outside", "PoolModel", "out_acquire s l t a : (n <= t)%nat -> available (locks s l) a ->", "out_acquire s l t a : (n <= t)%nat ->", "a lock a visit is inside of is not given to other code", "C54")
m("pool_start", "PoolModel", "mkVis (fst bp) (Exec (snd bp)) []", "mkVis (fst bp) (Exec LRet) []", "every visit visits its own value", "C54")

# --- the profile of a running process
m("own", "WholeModel", "(mkP r g (Next (x :: rs) b)) (mkP r g (Within rs b1 (Run", "(mkP r g (Next (x :: rs) b)) (mkP r g (Within [] b1 (Run", "every registered static is visited (the loop stops after the first)", "C55")
m("own", "WholeModel", "Run (CVisit (statics x) CRet)", "Run (CVisit (statics (x + 1)) CRet)", "the registered static is visited (another one is)", "C55")
m("own", "WholeModel", "(b', Done) ->\n    own m std statics (mkP r g (Within rs b k st)) (mkP r g (Next rs b'))", "(b', Done) ->\n    own m std statics (mkP r g (Within rs b k st)) (mkP r g (Next rs b))", "the root visitor is left before the next static", "C55")
m("own", "WholeModel", "o <> Done ->\n    own m std statics (mkP r g (Within rs b k st)) (mkP r g (Stopped b' o))", "o <> Done ->\n    own m std statics (mkP r g (Within rs b k st)) (mkP r g (Next rs b'))", "a panic leaves the loop", "C55")
m("wstep", "WholeModel", "(mkP r' g (Next l b))", "(mkP r' g (Next (tl l) b))", "every registered static is visited (the first is left out)", "C55")
m("wstep", "WholeModel", "(mkP r' g (Next l b))", "(mkP r g (Next l b))", "the registry is free while statics are visited (roots() does not return)", "C55")
m("launch", "WholeModel", "(Asks b_default)", "(Next [] b_default)", "visit_global_roots asks for the registered statics", "C55")
m("dstep", "DropModel", "(Code body :: Release l a :: Code rest :: todo)", "(Code body :: Code rest :: todo)", "a guard taken by a destructor is given back", "C56")
m("dstep", "DropModel", "(Code body :: Release l a :: Code rest :: todo)", "(Code body :: Release l Exclusive :: Code rest :: todo)", "a read guard taken by a destructor is given back", "C56")
m("dstep", "DropModel", "d_lock c l a body rest todo : available (locks (c_shared c) l) a ->", "d_lock c l a body rest todo : ", "a destructor waits until the lock is free", "C56")
m("dstep", "DropModel", "release (c_shared c) l (Other 0) a false", "release (c_shared c) l Visit a false", "a destructor gives back its own guards, not those of the visit", "C56")
m("dstep", "DropModel", "(mkD c' [Code (dtor x)])", "(mkD c' [])", "the destructor of a value that the visit drops last is run (inside the locks of the visit)", "C56")
m("dstep", "DropModel", "strong s' x = [] ->\n    dstep m std dtor (mkD c (Code (DDrop x t rest) :: todo)) (mkD (with_shared c s') (Code (dtor x) :: Code rest :: todo))", "strong s' x = [] ->\n    dstep m std dtor (mkD c (Code (DDrop x t rest) :: todo)) (mkD c (Code (dtor x) :: Code rest :: todo))", "a pointer is dropped once by a destructor", "C56")
m("dstep", "DropModel", "acquire (c_shared c) l (Other 0) a", "acquire (c_shared c) l Visit a", "guards of a destructor are not those of the visit", "C56")
m("druns", "DropModel", "outside 1 (c_shared c) s'", "outside 0 (c_shared c) s'", "other threads do not give back the guards of a destructor", "C56")

# --- What a profile takes
m("down", "BuilderModel", "| Some e => (set_current b (mkTS (ts_stack (b_current b)) e), Fine)", "| Some e => (set_current (set_trees b (fst (new_tree (b_trees b)))) (mkTS (ts_stack (b_current b)) e), Fine)", "entering an existing stack again takes no memory", "C57")
m("enter_shared", "BuilderModel", "set_visited b (p :: b_visited b)", "set_visited b (p :: p :: b_visited b)", "one entry per shared pointer", "C57")
m("finish_in", "ExtentModel", "do t <- update_sizes m depth (b_root b) (b_trees b);", "do t <- update_sizes m (S depth) (b_root b) (b_trees b);", "(limit of update_sizes off by one: write_flame_graph still needs the depth; equivalent)")
m("finish_in", "ExtentModel", "do (f, w) <- tree_write m depth t (b_root b) [];", "do (f, w) <- tree_write m (pred depth) t (b_root b) [];", "finish recurses exactly as deep as the longest stack", "C57")

# --- Flame graphs after a panic
m("add_left", "InterruptModel", "      | None => (self, false)\n      | Some n =>\n          (* for", "      | None => (FG (fg_children self) (fg_children_size self) (onode mod two64), false)\n      | Some n =>\n          (* for", "an overflow in add leaves the assignment undone", "C58")
m("add_left", "InterruptModel", "if ok then loop self l' else (self, false)", "loop self l'", "(a panic ends add, but add of an existing child never panics once its total was added: equivalent)")
m("add_left", "InterruptModel", "let (e', ok) := add_left m e child in\n                         let self := FG (hm_replace (fg_children self) k e') cs", "let (e', ok) := add_left m e child in\n                         let self := FG (if ok then hm_replace (fg_children self) k e' else fg_children self) cs", "(what was added before the panic stays in the children, but add of an existing child never panics once its total was added: equivalent)")
m("add_left", "InterruptModel", "| None => loop (FG (hm_insert_new (fg_children self) k child) cs (fg_node_size self)) l'", "| None => loop (FG (hm_insert_new (fg_children self) k child) (fg_children_size self) (fg_node_size self)) l'", "total size is that of the stacks", "C58")
m("add_child_left", "InterruptModel", "  | None => (self, false)\n  | Some cs =>\n      (* match", "  | None => (FG (hm_insert_new (fg_children self) k child) (fg_children_size self) (fg_node_size self), false)\n  | Some cs =>\n      (* match", "add_child that panics leaves the children as they were (inserted before the sum)", "C58")
m("add_child_left", "InterruptModel", "| Some e => let (e', ok) := add_left m e child in\n                  (FG (hm_replace", "| Some e => let (e', ok) := add_left m child e in\n                  (FG (hm_replace", "(arguments of add swapped: sizes are the same when it returns, a panic leaves another graph)", "C58")
m("add_self_left", "InterruptModel", "| None => (self, false)\n  | Some n => (FG (fg_children self) (fg_children_size self) n, true)", "| None => (self, true)\n  | Some n => (FG (fg_children self) (fg_children_size self) n, true)", "overflow in add_self panics", "C58")

# --- Depth and work of visits
m("run_in", "NestModel", """      | (b, Fine, true) =>
          match d with
          | O => None
          | S d' => match run_in d' m body b with""", """      | (b, Fine, true) =>
          match d with
          | O => None
          | S d' => match run_in d m body b with""", "a visit nests as deep as its longest chain of pointers (the visitor of a shared pointer is not counted)", "C59")
m("run_in", "NestModel", "| (b, Fine, false) => run_in d m r2 b", "| (b, Fine, false) => run_in (pred d) m r2 b", "a pointer that was visited before takes no stack", "C59")
m("visit_root_in", "NestModel", "| S d' => match run_in d' m p b with None", "| S d' => match run_in d m p b with None", "the root visitor is on the stack", "C59")
m("run_calls", "NestModel", "| (b, Fine, false) => S (run_calls m r2 b)", "| (b, Fine, false) => run_calls m r2 b", "calls that find a pointer visited are counted", "C59")
m("enter_shared", "BuilderModel", "if ptr_mem p (b_visited b) then\n        let (b, st) := exit_impl b in (b, st, false)", "if false then\n        let (b, st) := exit_impl b in (b, st, false)", "each allocation is visited once (the work is exponential)", "C59", "C15")
# --- Profiles of any size
m("isaturating_sub", "Base", "Z.max isize_min (Z.min isize_max (a - b)).", "((a - b - isize_min) mod (Z.of_N two64) + isize_min)%Z.", "own bytes saturate, they do not wrap", "C61")
m("isaturating_sub", "Base", "Z.max isize_min (Z.min isize_max (a - b)).", "Z.max isize_min (a - b).", "own bytes are cut off at isize::MAX", "C61")
m("as_isize", "Base", "if x <? two63 then Z.of_N x else (Z.of_N x - Z.of_N two64)%Z.", "if x <=? two63 then Z.of_N x else (Z.of_N x - Z.of_N two64)%Z.", "2^63 as isize is negative", "C61")
m("as_isize", "Base", "if x <? two63 then Z.of_N x else (Z.of_N x - Z.of_N two64)%Z.", "Z.of_N x.", "sizes of 2^63 and more are read as negative", "C61")
m("as_isize", "Base", "if x <? two63 then Z.of_N x else (Z.of_N x - Z.of_N two64)%Z.", "if x <? two63 then Z.of_N x else isize_max.", "`as` wraps, it does not saturate", "C61")
m("isub", "Base", "| Release => Some ((r - isize_min) mod (Z.of_N two64) + isize_min)%Z", "| Release => None", "(the difference in a warning always fits: equivalent)", "C61")
m("usum", "Base", "do a <- uadd m acc x; usum m a l'", "usum m (N.min (acc + x) (two64 - 1)) l'", "the sum over children wraps or panics, it does not saturate", "C61")
m("usum", "Base", "do a <- uadd m acc x; usum m a l'", "do a <- uadd Release acc x; usum m a l'", "a debug build panics when the sum over children overflows", "C61")
m("add_size", "BuilderModel", "match uadd m (td_size td) size with", "match uadd Release (td_size td) size with", "a debug build panics when the bytes of a stack overflow", "C61")
m("add_size", "BuilderModel", "match uadd m (td_size td) size with", "match Some (N.min (td_size td + size) (two64 - 1)) with", "sizes of a stack do not saturate", "C61")
m("enter_inline", "BuilderModel", "bind_status (down b k) (fun b => add_size m b size).", "match bind_status (down b k) (fun b => add_size m b size) with (_, Panicked) => (b, Panicked) | r => r end.", "a panic in enter leaves the builder unusable", "C61")
m("tw_node", "BuilderModel", "if (0 <? td_rem tree)%Z then", "if (0 <? td_rem tree)%Z && (td_rem tree <? isize_max)%Z then", "the largest own size is shown", "C61")
m("inline_children_size", "BuilderModel", "isub m (as_isize (td_size td)) (td_rem td)", "Some (Z.of_N (td_size td) - td_rem td)%Z", "the number in a warning is computed from the isize reading", "C61")
m("update_sizes", "BuilderModel", "(isaturating_sub (as_isize (td_size td)) (as_isize children_size))", "(Z.of_N (td_size td) - Z.of_N children_size)%Z", "own bytes are computed on isize", "C61")
# --- destructors that panic (C62)
m("ustep", "UnwindModel", "(mkU (with_shared c (release (c_shared c) l (Other 0) a (std l && access_eqb a Exclusive))) todo true)", "(mkU (with_shared c (release (c_shared c) l (Other 0) a false)) todo true)", "a mutex locked by a destructor that panics is poisoned", "C62")
m("ustep", "UnwindModel", "(mkU (with_shared c (release (c_shared c) l (Other 0) a (std l && access_eqb a Exclusive))) todo true)", "(mkU (with_shared c (release (c_shared c) l (Other 0) a (std l))) todo true)", "read guards do not poison", "C62")
m("ustep", "UnwindModel", "(mkU (with_shared c (release (c_shared c) l (Other 0) a (std l && access_eqb a Exclusive))) todo true)", "(mkU c todo true)", "guards of a destructor that panics are given back", "C62")
m("ustep", "UnwindModel", "(mkU c [] true) (mkU (with_control c Unwind) [] false)", "(mkU c [] true) (mkU c [] false)", "a panic that leaves a destructor leaves the visit", "C62")
m("ustep", "UnwindModel", "(mkU c [] true) (mkU (with_control c Unwind) [] false)", "(mkU c [] true) (mkU (gone c) [] false)", "a panic in a destructor does not abort the process", "C62")
m("ustep", "UnwindModel", "(mkU c [] true) (mkU (with_control c Unwind) [] false)", "(mkU c [] true) (mkU (mkConf (c_shared c) (c_builder c) Unwind []) [] false)", "after a panic in a destructor the scopes and guards of the visit are dropped", "C62")
m("ustep", "UnwindModel", "(Do cleanup :: Resume :: todo) false)", "(Do cleanup :: todo) false)", "after dropping the fields unwinding goes on", "C62")
m("ustep", "UnwindModel", "(mkU c (Resume :: todo) false) (mkU c todo true)", "(mkU c (Resume :: todo) false) (mkU c todo false)", "after dropping the fields unwinding goes on", "C62")
m("ustep", "UnwindModel", "(mkU (gone c) [] false)", "(mkU c todo true)", "a second panic aborts the process", "C62")
m("ustep", "UnwindModel", "u_panic c todo : ~ panicking (mkU c (Do UPanic :: todo) false) ->", "u_panic c todo : ", "a second panic always aborts the process", "C62")
m("ustep", "UnwindModel", "u_panic_again c todo : panicking (mkU c (Do UPanic :: todo) false) ->", "u_panic_again c todo : ", "a first panic does not abort the process", "C62")
m("panicking", "UnwindModel", "u_raised d = true \\/ c_control (u_conf d) = Unwind \\/ In Resume (u_todo d)", "u_raised d = true \\/ In Resume (u_todo d)", "a panic of a destructor while the visit is unwinding aborts", "C62")
m("panicking", "UnwindModel", "u_raised d = true \\/ c_control (u_conf d) = Unwind \\/ In Resume (u_todo d)", "u_raised d = true \\/ c_control (u_conf d) = Unwind", "a panic of a field while a destructor is unwinding aborts", "C62")
m("ustep", "UnwindModel", "(mkU c' [Do (dtor x)] false)", "(mkU c' [] false)", "the destructor of a value that the visit drops last is run", "C62")
m("ustep", "UnwindModel", "(Do (if poisoned (locks (c_shared c) l) then bad else ok) :: Unlock l a :: Do rest :: todo) false)", "(Do (if poisoned (locks (c_shared c) l) then bad else ok) :: Do rest :: todo) false)", "a guard taken by a destructor is given back", "C62")
m("ustep", "UnwindModel", "(mkU c (Finally cleanup :: todo) false) (mkU c (Do cleanup :: todo) false)", "(mkU c (Finally cleanup :: todo) false) (mkU c (Do UPanic :: todo) false)", "a destructor panics only where its code does", "C62")
m("ustep", "UnwindModel", "u_lock c l a ok bad rest todo : available (locks (c_shared c) l) a ->", "u_lock c l a ok bad rest todo : ", "a destructor waits until the lock is free", "C62")
m("gone", "UnwindModel", "mkConf (c_shared c) (c_builder c) Gone []", "mkConf (c_shared c) (c_builder c) Unwind []", "a second panic ends the process", "C62")
m("with_control", "UnwindModel", "mkConf (c_shared c) (c_builder c) k (c_stack c)", "mkConf (c_shared c) (fst (exit_impl (c_builder c))) k (c_stack c)", "every scope is closed once", "C62")
# --- threads that wait (C63)
m("admitted", "WaitModel", "a = ReadOnly -> polite l = true -> ~ writer_waits hs l.", "a = ReadOnly -> polite l = true -> polite l = true.", "who is kept out by a waiting writer does not get the lock", "C63")
m("admitted", "WaitModel", "a = ReadOnly -> polite l = true -> ~ writer_waits hs l.", "polite l = true -> ~ writer_waits hs l.", "a writer whom nobody obstructs gets the lock", "C63")
m("writer_waits", "WaitModel", "h_wants h = Some (l, Exclusive)", "h_wants h = Some (l, ReadOnly)", "readers are kept out by waiting writers only", "C63")
m("thread_step", "WaitModel", "h_granted s u l a : available (locks s l) a -> admitted polite hs l a ->", "h_granted s u l a : admitted polite hs l a ->", "who waits for a lock waits until it is free", "C63")
m("thread_step", "WaitModel", "h_granted s u l a : available (locks s l) a -> admitted polite hs l a ->", "h_granted s u l a : available (locks s l) a ->", "readers wait for waiting writers of fair locks", "C63")
m("thread_step", "WaitModel", "(mkThread u (Some (l, a))) (acquire s l o a) (mkThread u None)", "(mkThread u (Some (l, a))) (acquire s l Visit a) (mkThread u None)", "who waits for a lock gets it itself", "C63")
m("thread_step", "WaitModel", "(mkThread u (Some (l, a))) (acquire s l o a) (mkThread u None)", "(mkThread u (Some (l, a))) (acquire s l o ReadOnly) (mkThread u None)", "who waits to write gets the lock for writing", "C63")
m("thread_step", "WaitModel", "(mkThread u (Some (l, a))) (acquire s l o a) (mkThread u None)", "(mkThread u (Some (l, a))) s (mkThread u None)", "who waits for a lock has it afterwards", "C63")
m("thread_step", "WaitModel", "(mkThread u None) s (mkThread u' (Some (l, a)))", "(mkThread u None) s (mkThread u' None)", "who asks for a lock waits for it", "C63")
m("thread_step", "WaitModel", "(mkThread u None) s (mkThread u' (Some (l, a)))", "(mkThread u None) (acquire s l o a) (mkThread u' (Some (l, a)))", "who asks for a lock does not have it yet", "C63")
m("thread_step", "WaitModel", "prog u (Attempt l a true) u' -> available (locks s l) a ->", "prog u (Attempt l a true) u' -> ", "try_lock succeeds only if the lock is free", "C63")
m("thread_step", "WaitModel", "held (locks s l) <> [] \\/ spurious = true ->\n    thread_step prog polite spurious hs o s (mkThread u None) s (mkThread u' None)", "held (locks s l) <> [] \\/ spurious = true ->\n    thread_step prog polite spurious hs o s (mkThread u None) (acquire s l o a) (mkThread u' None)", "a try_lock that fails takes nothing", "C63")
m("thread_step", "WaitModel", "(release s l o a p) (mkThread u' None)", "(release s l (Other 0) a p) (mkThread u' None)", "a thread gives back its own guards", "C63")
m("thread_step", "WaitModel", "prog u (Give l a p) u' -> In (o, a) (held (locks s l)) ->", "prog u (Give l a p) u' -> ", "a thread gives back guards it has", "C63")
m("thread_step", "WaitModel", "(release s l o a p) (mkThread u' None)", "s (mkThread u' None)", "a thread that gives a lock back does not have it any more", "C63")
m("moves", "WaitModel", "v_control v = Exec (LWait l a body rest) -> admitted polite hs l a) ->", "v_control v = Exec (LWait l a body rest) -> True) ->", "a visit that is kept out by a waiting writer does not get the shard", "C63")
m("moves", "WaitModel", "thread_step prog polite spurious hs (Other (base + j)) s h s' h'", "thread_step prog polite spurious hs (Other j) s h s' h'", "guards of threads are not those of visits", "C63")
m("moves", "WaitModel", "y_drop s x t vs hs : (base <= t)%nat -> In (Other t) (strong s x) ->", "y_drop s x t vs hs : In (Other t) (strong s x) ->", "threads do not drop the references of visits", "C63")
m("moves", "WaitModel", "(mkLock (held (locks s l)) false)", "(mkLock [] false)", "clearing the poison of a lock takes no guard away", "C63")
m("moves", "WaitModel", "(mkProc (mkPool s' vs) (upd hs j h'))", "(mkProc (mkPool s' vs) (upd hs 0 h'))", "a step of a thread changes that thread", "C63")
m("process_start", "WaitModel", "map (fun u => mkThread u None) us", "map (fun u => mkThread u (Some (0, Exclusive))) us", "threads that start wait for nothing", "C63")
# --- DashMaps and everything else that changes (C64)
X="C64"
m("xstep", "MixModel", "(mkXC (xset g (release (acquire (x_shared g) l2 Visit ReadOnly) l Visit ReadOnly false)) b", "(mkXC (xset g (acquire (x_shared g) l2 Visit ReadOnly)) b", "the shard before is released", X)
m("xstep", "MixModel", "(mkXC (xset g (release (acquire (x_shared g) l2 Visit ReadOnly) l Visit ReadOnly false)) b", "(mkXC (xset g (release (acquire (x_shared g) l2 Visit ReadOnly) l2 Visit ReadOnly false)) b", "the guard of the shard whose entries are visited is kept", X)
m("xstep", "MixModel", "(mkXC (xset g (release (acquire (x_shared g) l2 Visit ReadOnly) l Visit ReadOnly false)) b", "(mkXC (xset g (release (x_shared g) l Visit ReadOnly false)) b", "entries of the next shard are visited under its guard", X)
m("xstep", "MixModel", "(XRun (xentries kd (tb_entries (x_table g l2)))) (YShard kd l2 ls rest :: st))", "(XRun (xentries kd (tb_entries (x_table g l)))) (YShard kd l2 ls rest :: st))", "the entries visited are those of the shard whose guard is held", X)
m("xstep", "MixModel", "(XRun (xentries kd (tb_entries (x_table g l2)))) (YShard kd l2 ls rest :: st))", "(XRun (xentries kd (tb_entries (x_table g l2)))) (YShard kd l ls rest :: st))", "the guard recorded is that of the shard visited", X)
m("xstep", "MixModel", "(XRun (xentries kd (tb_entries (x_table g l2)))) (YShard kd l2 ls rest :: st))", "(XRun (xentries kd (tb_entries (x_table g l2)))) (YShard kd l2 [] rest :: st))", "all shards are visited", X)
m("xstep", "MixModel", "(mkXC (xset g (release (x_shared g) l Visit ReadOnly false)) b (XRun rest) st)", "(mkXC g b (XRun rest) st)", "the last shard is released", X)
m("xstep", "MixModel", "(mkXC (xset g (release (x_shared g) l Visit ReadOnly false)) b XUnwinds st)", "(mkXC g b XUnwinds st)", "a panic in an entry releases the shard", X)
m("xstep", "MixModel", "| x_next_shard g b kd l l2 ls rest st : available (locks (x_shared g) l2) ReadOnly ->", "| x_next_shard g b kd l l2 ls rest st : True ->", "the iterator waits for the next shard", X)
m("xstep", "MixModel", "| x_first_shard g b kd l ls rest st : available (locks (x_shared g) l) ReadOnly ->", "| x_first_shard g b kd l ls rest st : True ->", "the iterator waits for the first shard", X)
m("xstep", "MixModel", "(mkXC (xset g (acquire (x_shared g) l Visit ReadOnly)) b (XRun (xentries kd (tb_entries (x_table g l)))) (YShard kd l ls rest :: st))", "(mkXC g b (XRun (xentries kd (tb_entries (x_table g l)))) (YShard kd l ls rest :: st))", "entries of the first shard are visited under its guard", X)
m("xstep", "MixModel", "(mkXC (xset g (acquire (x_shared g) l Visit ReadOnly)) b (XRun (xentries kd (tb_entries (x_table g l)))) (YShard kd l ls rest :: st))", "(mkXC (xset g (acquire (x_shared g) l Visit Exclusive)) b (XRun (xentries kd (tb_entries (x_table g l)))) (YShard kd l ls rest :: st))", "visits take shards for reading", X)
m("xstep", "MixModel", "(mkXC (xset g (acquire (x_shared g) l Visit ReadOnly)) b (XRun (xentries kd (tb_entries (x_table g l)))) (YShard kd l ls rest :: st))", "(mkXC (xset g (acquire (x_shared g) l Visit ReadOnly)) b (XRun (xentries kd (tb_entries (x_table g l)))) (YShard kd l (l :: ls) rest :: st))", "each shard is visited once", X)
m("xstep", "MixModel", "uadd m acc (count w (x_table g l)) = Some n ->", "uadd m acc (count Capacity (x_table g l)) = Some n ->", "len() adds up lengths", X)
m("xstep", "MixModel", "| x_sum g b w l ls acc k n st : available (locks (x_shared g) l) ReadOnly ->", "| x_sum g b w l ls acc k n st : True ->", "a shard is asked only when it can be read", X)
m("xstep", "MixModel", "(mkXC g b (XRun (XSum w (l :: ls) acc k)) st) (mkXC g b (XRun (XSum w ls n k)) st)", "(mkXC g b (XRun (XSum w (l :: ls) acc k)) st) (mkXC g b (XRun (XSum w ls acc k)) st)", "all shards count", X)
m("xstep", "MixModel", "(mkXC g b (XRun (XSum w (l :: ls) acc k)) st) (mkXC g b (XRun (XSum w ls n k)) st)", "(mkXC g b (XRun (XSum w (l :: ls) acc k)) st) (mkXC g b (XRun (XSum w (l :: ls) n k)) st)", "the sum comes to an end", X)
m("xstep", "MixModel", "(mkXC g b (XRun (XSum w (l :: ls) acc k)) st) (mkXC g b (XRun (XSum w ls n k)) st)", "(mkXC g b (XRun (XSum w (l :: ls) acc k)) st) (mkXC (xset g (acquire (x_shared g) l Visit ReadOnly)) b (XRun (XSum w ls n k)) st)", "capacity() and len() hold nothing afterwards", X)
m("xstep", "MixModel", "uadd m acc (count w (x_table g l)) = None ->\n    xstep m std (mkXC g b (XRun (XSum w (l :: ls) acc k)) st) (mkXC g b XUnwinds st)", "uadd m acc (count w (x_table g l)) = None ->\n    xstep m std (mkXC g b (XRun (XSum w (l :: ls) acc k)) st) (mkXC g b (XRun XRet) st)", "an overflow panics", X)
m("xentries", "MixModel", "| IsSet => XInline DATA_NAME (xsize k) (XVisit k XRet) (xentries kd es')", "| IsSet => XInline KEY_NAME (xsize k) (XVisit k XRet) (xentries kd es')", "entries of a set are under data", X)
m("xentries", "MixModel", "XInline VALUE_NAME (xsize v) (XVisit v XRet) (xentries kd es')", "XInline VALUE_NAME (xsize v) (XVisit k XRet) (xentries kd es')", "values are visited", X)
m("xentries", "MixModel", "XInline VALUE_NAME (xsize v) (XVisit v XRet) (xentries kd es')", "XInline VALUE_NAME (xsize v) (XVisit v XRet) XRet", "all entries are visited", X)
m("xentries", "MixModel", "| IsMap => XInline KEY_NAME (xsize k)", "| IsMap => XInline KEY_NAME (xsize v)", "keys are declared with their size", X)
m("xdash", "MixModel", "(XSum Capacity ls 0 (fun c' => XSum Length ls 0 (fun n =>", "(XSum Capacity ls 0 (fun c' => XSum Capacity ls 0 (fun n =>", "unused capacity is capacity minus length", X)
m("xdash", "MixModel", "(usaturating_sub c' n)", "(usaturating_sub n c')", "unused capacity is capacity minus length", X)
m("xdash", "MixModel", "(usaturating_sub c' n)", "(usaturating_sub c n)", "the capacity is asked for again", X)
m("xdash", "MixModel", "xwith (umul m c (t_size e)) (fun total =>", "xwith (umul m c (t_size t)) (fun total =>", "capacity is in entries", X)
m("xdash", "MixModel", "(XUnique PTR_NAME ptr_size", "(XInline PTR_NAME ptr_size", "the table is another allocation", X)
m("xchange", "MixModel", "| xc_table g l t tb : In (Other t, Exclusive) (held (locks (x_shared g) l)) ->", "| xc_table g l t tb : In (Other t, ReadOnly) (held (locks (x_shared g) l)) ->", "tables are changed with the write guard only", X)
m("xchange", "MixModel", "| xc_write g l t v : In (Other t, Exclusive) (held (locks (x_shared g) l)) ->", "| xc_write g l (t : nat) v : t = t ->", "contents are changed with the guard only", X)
m("ximplementation", "MixModel", "| XDash kd t e ls => xdash m kd t e ls", "| XDash kd t e ls => xdash m IsMap t e ls", "a set has no values", X)
m("count", "MixModel", "Length => len (tb_entries tb)", "Length => tb_cap tb", "len() is the number of entries", X)
m("xbehind", "MixModel", "(visit_inner i (xsize v, VShared DATA_NAME 0 0 VRet VRet VRet))", "(visit_inner i (0, VShared DATA_NAME 0 0 VRet VRet VRet))", "allocations are declared with the size of the value", X)
m("xopened", "MixModel", "XInline DATA_NAME (xsize c) (XVisit c XRet) XRet else XVisit c XRet", "XVisit c XRet else XInline DATA_NAME (xsize c) (XVisit c XRet) XRet", "locks have a data frame, once cells have none", X)
m("xstep", "MixModel", "| x_try g b l a field rest st : available (locks (x_shared g) l) a -> poisoned (locks (x_shared g) l) = false ->", "| x_try g b l a field rest st : available (locks (x_shared g) l) a -> True ->", "poisoned locks are skipped", X)
m("xstep", "MixModel", "| x_upgrade_dead g b x body rest st : strong (x_shared g) x = [] ->", "| x_upgrade_dead g b x body rest st : True ->", "a Weak is skipped only if dead", X)
m("xstep", "MixModel", "(mkXC g b' (XRun (xbehind (x_object g x))) (YScope rest :: st))", "(mkXC g b' (XRun (xbehind (x_object g 0))) (YScope rest :: st))", "what is visited is the allocation pointed to", X)
m("xsize", "MixModel", "| XDash IsMap t e _ => Node (SDashMap t e 0) []", "| XDash IsMap t e _ => Node (SDashMap e e 0) []", "the size of a map is that of its type", X)
m("ident_char", "DeriveModel", "(n <=? 57)", "(n <=? 58)", "#[root] panics for names that are not plain identifiers", "C42")
Z = "C65"
m("zbegin", "SizeMixModel", "mkZ g 0 NKRoot (ZRun", "mkZ g 0 NKUnique (ZRun", "the argument's own size is not allocated data", Z)
m("zbegin", "SizeMixModel", "mkZ g 0 NKRoot (ZRun", "mkZ g 1 NKRoot (ZRun", "nothing is counted before the visit", Z)
m("zstep", "SizeMixModel", "(mkZ g s' NKInline (ZRun body) (ZScope nk rest :: st))", "(mkZ g s' nk (ZRun body) (ZScope nk rest :: st))", "inline data is inside its block", Z)
m("zstep", "SizeMixModel", "(mkZ g (so_enter_unique s k n nk) NKUnique (ZRun body)", "(mkZ g (so_enter_unique s k n nk) NKInline (ZRun body)", "what is directly in a unique allocation counts", Z)
m("zstep", "SizeMixModel", "(mkZ g s nk (ZRun XRet) (ZScope nk' rest :: st)) (mkZ g (so_exit s) nk' (ZRun rest) st)", "(mkZ g s nk (ZRun XRet) (ZScope nk' rest :: st)) (mkZ g (so_exit s) nk (ZRun rest) st)", "leaving a scope restores the kind of the visitor", Z)
m("zstep", "SizeMixModel", "(mkZ g s nk (ZRun XRet) (ZScope nk' rest :: st)) (mkZ g (so_exit s) nk' (ZRun rest) st)", "(mkZ g s nk (ZRun XRet) (ZScope nk' rest :: st)) (mkZ g 0 nk' (ZRun rest) st)", "leaving a scope keeps the size", Z)
m("zstep", "SizeMixModel", "(mkZ (xset g (release (x_shared g) l Visit a (std l && access_eqb a Exclusive))) s nk ZUnwinds st)", "(mkZ g s nk ZUnwinds st)", "guards are given back when unwinding", Z)
m("zstep", "SizeMixModel", "(mkZ (xset g (release (acquire (x_shared g) l2 Visit ReadOnly) l Visit ReadOnly false)) s nk", "(mkZ (xset g (acquire (x_shared g) l2 Visit ReadOnly)) s nk", "the previous shard is given back", Z)
m("zstep", "SizeMixModel", "(ZRun (xentries kd (tb_entries (x_table g l2)))) (ZShard kd l2 ls rest :: st))", "(ZRun (xentries kd (tb_entries (x_table g l)))) (ZShard kd l2 ls rest :: st))", "each shard shows its own entries", Z)
m("zstep", "SizeMixModel", "(mkZ (xset g (release (x_shared g) l Visit ReadOnly false)) s nk (ZRun rest) st)", "(mkZ g s nk (ZRun rest) st)", "the last shard is given back", Z)
m("zstep", "SizeMixModel", "| z_first_shard g s nk kd l ls rest st : available (locks (x_shared g) l) ReadOnly ->", "| z_first_shard g s nk kd l ls rest st : True ->", "a shard is visited with its read lock", Z)
m("zstep", "SizeMixModel", "(mkZ g s nk (ZRun (XIter kd (l :: ls) rest)) st)\n      (mkZ (xset g (acquire (x_shared g) l Visit ReadOnly)) s", "(mkZ g s nk (ZRun (XIter kd (l :: ls) rest)) st)\n      (mkZ g s", "the read lock is kept while entries are visited", Z)
m("zstep", "SizeMixModel", "(mkZ g s nk (ZRun (XShared k n x rest)) st) (mkZ g s' nk (ZRun rest) st)", "(mkZ g s nk (ZRun (XShared k n x rest)) st) (mkZ g s' nk (ZRun (xbehind (x_object g x))) (ZThen rest :: st))", "shared pointers are not followed", Z)
m("zstep", "SizeMixModel", "| z_try g s nk l a field rest st : available (locks (x_shared g) l) a -> poisoned (locks (x_shared g) l) = false ->", "| z_try g s nk l a field rest st : available (locks (x_shared g) l) a -> True ->", "poisoned locks are skipped", Z)
m("zstep", "SizeMixModel", "| z_try_fails g s nk l a field rest st : held (locks (x_shared g) l) <> [] \\/ poisoned (locks (x_shared g) l) = true ->", "| z_try_fails g s nk l a field rest st : True ->", "a free lock is not skipped", Z)
m("zstep", "SizeMixModel", "(mkZ (xset g (acquire (x_shared g) l Visit a)) s nk (ZRun (xopened field (x_content g l))) (ZGuard l a rest :: st))", "(mkZ (xset g (acquire (x_shared g) l Visit ReadOnly)) s nk (ZRun (xopened field (x_content g l))) (ZGuard l a rest :: st))", "a mutex is locked exclusively", Z)
m("zstep", "SizeMixModel", "uadd m acc (count w (x_table g l)) = Some n ->", "uadd m 0 (count w (x_table g l)) = Some n ->", "capacities of all shards are added", Z)
m("zstep", "SizeMixModel", "(ZRun (XSum w (l :: ls) acc k)) st) (mkZ g s nk ZUnwinds st)", "(ZRun (XSum w (l :: ls) acc k)) st) (mkZ g s nk (ZRun XRet) st)", "an overflow is a panic", Z)
m("zstep", "SizeMixModel", "| z_sum g s nk w l ls acc k n st : available (locks (x_shared g) l) ReadOnly ->", "| z_sum g s nk w l ls acc k n st : held (locks (x_shared g) l) = [] ->", "it waits only for shards someone has exclusively", Z)
m("zstep", "SizeMixModel", "(mkZ (xset g (set_strong (x_shared g) x (Visit :: strong (x_shared g) x))) s nk (ZRun body) (ZArc x rest :: st))", "(mkZ g s nk (ZRun body) (ZArc x rest :: st))", "upgrade takes a strong reference", Z)
m("zstep", "SizeMixModel", "(mkZ (xset g (set_strong (x_shared g) x (remove_one owner_eqb Visit (strong (x_shared g) x)))) s nk ZUnwinds st)", "(mkZ g s nk ZUnwinds st)", "upgraded references are dropped when unwinding", Z)
m("zstep", "SizeMixModel", "(mkZ g s nk (ZRun XCrash) st) (mkZ g s nk ZUnwinds st)", "(mkZ g s nk (ZRun XCrash) st) (mkZ g s nk (ZRun XRet) st)", "a panic is a panic", Z)
m("zresult", "SizeMixModel", "ZUnwinds => None end", "ZUnwinds => Some (z_size c) end", "a panic gives no result", Z)
m("zended", "SizeMixModel", "| ZUnwinds, [] => True", "| ZUnwinds, _ => True", "unwinding gives everything back", Z)
m("zstep", "SizeMixModel", "(ZRun (XVisit v rest)) st) (mkZ g s nk (ZRun (ximplementation m v)) (ZThen rest :: st))", "(ZRun (XVisit v rest)) st) (mkZ g s nk (ZRun (ximplementation m v)) st)", "what comes after a value is visited too", Z)
Q = "C66"
m("xview", "MixPoolModel", "Definition xview (i : nat) (g : xmemory) : xmemory := xset g (view i (x_shared g)).", "Definition xview (i : nat) (g : xmemory) : xmemory := g.", "each participant has guards of its own", Q)
m("xview", "MixPoolModel", "xset g (view i (x_shared g)).", "xset g (view 0 (x_shared g)).", "each participant has guards of its own", Q)
m("xsame", "MixPoolModel", "same (x_shared g) (x_shared g') /\\ x_content g = x_content g' /\\", "same (x_shared g) (x_shared g') /\\", "participants never change contents of locks", Q)
m("xsame", "MixPoolModel", "/\\ x_object g = x_object g' /\\ x_table g = x_table g'.", "/\\ x_object g = x_object g'.", "participants never change maps", Q)
m("xsame", "MixPoolModel", "same (x_shared g) (x_shared g') /\\ x_content g", "x_content g", "guards are taken and given back in the one memory", Q)
m("xoutside", "MixPoolModel", "| xo_write g l t v : (n <= t)%nat -> In (Other t, Exclusive) (held (locks (x_shared g) l)) ->", "| xo_write g l t v : (n <= t)%nat ->", "contents are replaced by who has the lock", Q)
m("xoutside", "MixPoolModel", "| xo_table g l t tb : (n <= t)%nat -> In (Other t, Exclusive) (held (locks (x_shared g) l)) ->", "| xo_table g l t tb : (n <= t)%nat -> In (Other t, ReadOnly) (held (locks (x_shared g) l)) ->", "tables are changed by who has the write lock", Q)
m("xoutside", "MixPoolModel", "| xo_table g l t tb : (n <= t)%nat ->", "| xo_table g l t tb :", "other code has no guards of participants", Q)
m("xoutside", "MixPoolModel", "| xo_next g l l2 t : (n <= t)%nat ->", "| xo_next g l l2 t :", "other code does not give back a participant's shard", Q)
m("xturn", "MixPoolModel", "(upd all i (DVisit b1 (XRun (XVisit v XRet)) [] vs calm))", "(upd all i (DVisit b1 (XRun (XVisit v XRet)) [] (v :: vs) calm))", "each root is visited once", Q)
m("xturn", "MixPoolModel", "(upd all i (DVisit b1 (XRun (XVisit v XRet)) [] vs calm))", "(upd all i (DVisit b (XRun (XVisit v XRet)) [] vs calm))", "root_visitor is entered", Q)
m("xturn", "MixPoolModel", "(upd all i (DRoots b1 vs false))", "(upd all i (DRoots b1 vs calm))", "a refused root is a panic", Q)
m("xturn", "MixPoolModel", "(upd all i (DVisit b' k' st' vs calm))", "(upd all i (DVisit b k' st' vs calm))", "what is visited is recorded", Q)
m("xturn", "MixPoolModel", "xstep m std (mkXC (xview i g) b k st) (mkXC g1 b' k' st') -> xsame (xview i g') g1 ->", "xstep m std (mkXC (xview i g) b k st) (mkXC g1 b' k' st') -> xsame g' g1 ->", "guards belong to the participant that took them", Q)
m("xturn", "MixPoolModel", "(DRoots b2 vs (match o2 with Done => calm | _ => false end))", "(DRoots b2 vs calm)", "a panic of a visit is not forgotten", Q)
m("xturn", "MixPoolModel", "(DRoots b2 vs (match o2 with Done => calm | _ => false end))", "(DRoots b2 vs (match o2 with Done => true | _ => false end))", "an earlier panic is not forgotten", Q)
m("xturn", "MixPoolModel", "(DRoots b2 vs (match o2 with Done => calm | _ => false end))", "(DRoots b vs (match o2 with Done => calm | _ => false end))", "the root scope is left", Q)
m("xturn", "MixPoolModel", "leave_scope (xresult (mkXC g b k st)) = (b2, o2) -> o2 <> Aborted ->", "leave_scope (xresult (mkXC g b k st)) = (b2, o2) ->", "after an abort nothing goes on", Q)
m("xturn", "MixPoolModel", "(upd all i (DGone b2))", "(upd all i (DRoots b2 vs false))", "after an abort nothing goes on", Q)
m("xturn", "MixPoolModel", "xended (mkXC g b k st) -> leave_scope (xresult (mkXC g b k st)) = (b2, o2)", "leave_scope (xresult (mkXC g b k st)) = (b2, o2)", "the root visitor is left when the visit has returned", Q)
m("xturn", "MixPoolModel", "(upd all i (DSize s' nk' k' st'))", "(upd all i (DSize s nk' k' st'))", "what is visited is counted", Q)
m("xturn", "MixPoolModel", "(upd all i (DSize s' nk' k' st'))", "(upd all 0%nat (DSize s' nk' k' st'))", "calls do not replace other participants", Q)
m("xjoint", "MixPoolModel", "xoutside (length all) g g' ->", "xoutside 0 g g' ->", "other code has no guards of participants", Q)
m("job_start", "MixPoolModel", "DSize 0 NKRoot", "DSize 0 NKUnique", "the argument's own size is not counted", Q)
m("job_start", "MixPoolModel", "DRoots b roots true", "DRoots b roots false", "no panic at the start", Q)
# liveness of several participants, C66_waits_for_others, C66_no_deadlock, C66_ends, C66_all_over
m("xturn", "MixPoolModel", "(DRoots b (v :: vs) calm) -> root_visitor b = (b1, Fine) ->", "(DRoots b (v :: vs) calm) -> root_visitor b = (b1, Fine) -> (forall j d, nth_error all j = Some d -> match d with DVisit _ _ _ _ _ => False | _ => True end) ->", "a session does not wait for another one", Q)
m("xturn", "MixPoolModel", "leave_scope (xresult (mkXC g b k st)) = (b2, o2) -> o2 <> Aborted ->", "leave_scope (xresult (mkXC g b k st)) = (b2, o2) -> o2 <> Aborted -> (forall l, held (locks (x_shared g) l) = []) ->", "a session does not wait for locks when it leaves a root", Q)
m("xturn", "MixPoolModel", "zstep m std (mkZ (xview i g) s nk k st) (mkZ g1 s' nk' k' st') ->", "zstep m std (mkZ (xview i g) s nk k st) (mkZ g1 s' nk' k' st') -> i <> 1%nat ->", "every call can go on", Q)
m("xturn", "MixPoolModel", "(upd all i (DRoots b1 vs false))", "(upd all i (DRoots b1 (v :: vs) false))", "a refused root is not tried again", Q)
m("xturn", "MixPoolModel", "leave_scope (xresult (mkXC g b k st)) = (b2, o2) -> o2 <> Aborted ->", "leave_scope (xresult (mkXC g b k st)) = (b2, o2) -> o2 = Done ->", "a session goes on after a panic", Q)
m("xstep", "MixModel", "(mkXC (xset g (acquire (x_shared g) l Visit ReadOnly)) b (XRun (xentries", "(mkXC (xset g (acquire (x_shared g) l Visit Exclusive)) b (XRun (xentries", "shards are only read, so a visit does not keep others out", X)
m("xstep", "MixModel", "| x_sum g b w l ls acc k n st : available (locks (x_shared g) l) ReadOnly ->", "| x_sum g b w l ls acc k n st : held (locks (x_shared g) l) = [] ->", "it does not wait for who only reads a shard", X)
m("xstep", "MixModel", "| x_first_shard g b kd l ls rest st : available (locks (x_shared g) l) ReadOnly ->", "| x_first_shard g b kd l ls rest st : available (locks (x_shared g) l) Exclusive ->", "it does not wait for who only reads a shard", X)
m("xstep", "MixModel", "| x_try_fails g b l a field rest st : held (locks (x_shared g) l) <> [] \\/ poisoned (locks (x_shared g) l) = true ->", "| x_try_fails g b l a field rest st : poisoned (locks (x_shared g) l) = true ->", "it does not wait for locks other than shards", X)
m("xstep", "MixModel", "| x_upgrade_dead g b x body rest st : strong (x_shared g) x = [] ->", "| x_upgrade_dead g b x body rest st : strong (x_shared g) x = [] -> available (locks (x_shared g) 0) Exclusive ->", "a dead Weak is passed without waiting", X)
m("zstep", "SizeMixModel", "| z_try_fails g s nk l a field rest st : held (locks (x_shared g) l) <> [] \\/ poisoned (locks (x_shared g) l) = true ->", "| z_try_fails g s nk l a field rest st : poisoned (locks (x_shared g) l) = true ->", "a call does not wait for locks other than shards", Z)
m("zstep", "SizeMixModel", "| z_first_shard g s nk kd l ls rest st : available (locks (x_shared g) l) ReadOnly ->", "| z_first_shard g s nk kd l ls rest st : available (locks (x_shared g) l) Exclusive ->", "a call does not wait for who only reads a shard", Z)
m("xopened", "MixModel", "if field then XInline DATA_NAME (xsize c) (XVisit c XRet) XRet else XVisit c XRet.", "if field then XInline DATA_NAME (xsize c) (XVisit c (XVisit c XRet)) XRet else XVisit c XRet.", "the content of a lock is visited once", X)
m("ximplementation", "MixModel", "(t_size t) (XTry l ReadOnly false XRet) XRet", "(t_size t) (XIter IsSet [l] XRet) XRet", "a OnceCell is not waited for", X)
# C67: the profile of a running process with DashMaps
WM=["C67"]
def mw(old, new, claim, d="xown"): m(d, "WholeMixModel", old, new, claim, WM)
mw("(mkPX r g (XWithin rs b1 (XRun (XVisit (statics x) XRet)) []))", "(mkPX r g (XWithin (x :: rs) b1 (XRun (XVisit (statics x) XRet)) []))", "every registration is visited once")
mw("(mkPX r g (XWithin rs b1 (XRun (XVisit (statics x) XRet)) []))", "(mkPX r g (XWithin rs b1 (XRun XRet) []))", "no static is left out")
mw("(mkPX r g (XWithin rs b1 (XRun (XVisit (statics x) XRet)) []))", "(mkPX r g (XWithin rs b (XRun (XVisit (statics x) XRet)) []))", "root_visitor is entered")
mw("(mkPX r g (XStopped b1 Unwinding))", "(mkPX r g (XNext rs b1))", "a panic leaves the loop")
mw("(mkPX r g (XStopped b1 Unwinding))", "(mkPX r g (XStopped b1 Aborted))", "a refused root is a panic")
mw("(mkPX r g' (XWithin rs b' k' st'))", "(mkPX r g' (XWithin rs b k' st'))", "what is visited is recorded")
mw("(mkPX r g' (XWithin rs b' k' st'))", "(mkPX r g (XWithin rs b' k' st'))", "guards taken are given back, guards given back are gone")
mw("xended (mkXC g b k st) -> leave_scope (xresult (mkXC g b k st)) = (b', Done) ->", "leave_scope (xresult (mkXC g b k st)) = (b', Done) ->", "the loop goes on when the visit has returned")
mw("leave_scope (xresult (mkXC g b k st)) = (b', Done) ->\n    xown m std statics (mkPX r g (XWithin rs b k st)) (mkPX r g (XNext rs b'))", "leave_scope (xresult (mkXC g b k st)) = (b', Unwinding) ->\n    xown m std statics (mkPX r g (XWithin rs b k st)) (mkPX r g (XNext rs b'))", "a panic leaves the loop")
mw("(mkPX r g (XNext rs b'))", "(mkPX r g (XNext rs b))", "the root scope is left")
mw("(mkPX r g (XNext rs b'))", "(mkPX r g (XNext [] b'))", "every registered static is visited")
mw("= (b', o) -> o <> Done ->", "= (b', o) ->", "only a panic leaves the loop")
mw("= (b', o) -> o <> Done ->", "= (b', o) -> o = Aborted ->", "the loop does not hang after a panic")
mw("(mkPX r' g (XNext l b))", "(mkPX r' g (XNext (rev l) b))", "statics are visited in registration order", "xwstep")
mw("gstep r [Ret me n Snapshot (RList l)] r' ->", "gstep r [Ret me n Snapshot (RList l)] r' \\/ r = r' ->", "the statics are those of the registry", "xwstep")
mw("(mkPX r' g (XNext l b))", "(mkPX r g (XNext l b))", "the profile asks once for the statics", "xwstep")
mw("xchange g g' -> xwstep", "x_table g = x_table g' \\/ x_table g <> x_table g' -> xwstep", "others change what Rust lets them change", "xwstep")
mw("root_visitor b = (b1, Fine) ->", "root_visitor b = (b1, Fine) -> g_lock r = None ->", "the profile does not wait for the registry")
mw("(XAsks b_default)", "(XNext [] b_default)", "registered statics are in the profile", "xlaunch")
mw("(XAsks b_default)", "(XAsks (set_entered b_default true))", "the builder is new", "xlaunch")
mw("(forall n l, e <> [Ret me n Snapshot (RList l)]) ->", "(forall n l, e <> [Ret me n Snapshot (RList l)]) -> (forall rs b k st, ph <> XWithin rs b k st) ->", "statics can be registered while others are visited", "xwstep")
mw("xchange g g' -> xwstep", "xchange g g' -> (forall rs b k st, ph <> XWithin rs b k st) -> xwstep", "other threads go on while statics are visited", "xwstep")
mw("(forall n l, e <> [Ret me n Snapshot (RList l)]) ->\n    xwstep m std statics me (mkPX r g ph) e (mkPX r' g ph)", "True ->\n    xwstep m std statics me (mkPX r g ph) e (mkPX r' g ph)", "the answer of roots() is what is visited", "xwstep")
mw("(mkPX r' g ph)\n", "(mkPX r' g (match e, ph with [Inv _ _ (Register x)], XNext rs b => XNext (rs ++ [x]) b | _, _ => ph end))\n", "what is registered after the loop began is not in this profile", "xwstep")
mw("xstep m std (mkXC g b k st) (mkXC g' b' k' st') ->", "xstep m std (mkXC g b k st) (mkXC g' b' k' st') -> g_lock r = None ->", "the profile does not wait for the registry")
m("zstep", "SizeMixModel", "| z_try g s nk l a field rest st : available (locks (x_shared g) l) a ->", "| z_try g s nk l a field rest st : (forall l' a' r, ~ In (ZGuard l' a' r) st) -> available (locks (x_shared g) l) a ->", "locks within locks are opened", Z)
m("zstep", "SizeMixModel", "(ZRun (ximplementation m v)) (ZThen rest :: st))", "(ZRun (if Nat.leb 128 (length st) then XRet else ximplementation m v)) (ZThen rest :: st))", "values are visited at any depth", Z)
