"""Realistic bugs, for mutate.py."""
FM = ["C01_StringMap_is_finite_map", "C22_Set_map"]
FS = ["C02_StringSet_is_finite_set", "C22_Add_set"]

def A(id, definition, old, new, edit, claim, expect, file="Amt.v", **kw):
    return dict(id=id, definition=definition, file=file, old=old, new=new, edit=edit, claim=claim, expect=expect, **kw)

MUTATIONS = [
 A("M01", "Amt.idx_of", "(andnot pmap (shl32 ones32 radix))", "(andnot pmap (shl32 ones32 (radix + 1)))",
   "index counts one bit too many", "C01: Get returns the stored value", FM + FS),
 A("M02", "Amt.advance", "if negb (d mod 16 =? 0) then (h.1, N.shiftr h.2 4)", "if negb (d mod 15 =? 0) then (h.1, N.shiftr h.2 4)",
   "rehash every 15 levels instead of 16", "C14/C16: depth and order are given by the hash digits", ["C14_Dep_map", "C15_C16_All_map", "C14_Dep_set"]),
 A("M03", "Amt.find", "ret (if f_eq F k ck then Some iv else None)", "ret (Some iv)",
   "Ptr and Has do not compare the keys", "C01: Get of an absent key returns false", FM + FS),
 A("M04", "Amt.get", "| At _ => x <- load_kv p ;; ret (x.1, true)", "| At _ => x <- load_kv p ;; ret (zero, true)",
   "Get returns the zero value for stored keys", "C01: Get returns the stored value", FM),
 A("M05", "Amt.val", "  | None => ret zero\n  | Some _ =>\n      p <- ptr_of", "  | None => panic\n  | Some _ =>\n      p <- ptr_of",
   "Val panics on an uninitialised map", "C21: Val of a nil map returns the zero value", ["C21_StringMap"]),
 A("M06", "Amt.shift_up", "      store_at p (idx + n' + 1) x ;;;\n      shift_up p idx n'", "      store_at p (idx + n') x ;;;\n      shift_up p idx n'",
   "items are not moved up when inserting", "C10/C22: Set affects no other key", FM + FS),
 A("M07", "Amt.add_item", "shift_up (lk_ptr lv) idx (count - idx) ;;;", "shift_up (lk_ptr lv) idx (count - idx - 1) ;;;",
   "one item too few is moved up", "C22: Set affects no other key", FM + FS),
 A("M08", "Amt.count_in", "rt_with_len (add64 (rt_len rt) 1) rt) ;;;", "rt_with_len (add64 (rt_len rt) 0) rt) ;;;",
   "m.len++ is missing", "C13: Len is exact", ["C13_Len_map", "C13_Len_set"]),
 A("M09", "Amt.split", "        count_in r (d * 2)", "        count_in r d",
   "the depth of the displaced key is not counted after a split", "C14: Dep is exact", ["C14_Dep_map", "C14_Dep_set"]),
 A("M10", "Amt.split", "        (if kbit <? cbit\n", "        (if cbit <? kbit\n",
   "the two entries of a new pair are swapped", "C01: Get returns the stored value", FM + FS),
 A("M11", "Amt.split", "        upd_link item (λ x, lk_with_tmap (lk_pmap x) x) ;;;\n", "",
   "tmap of a new pair is not set", "C18: items are interpreted with their type", FM + ["C18_C19_calls_return_map"]),
 A("M12", "Amt.add_item", "  upd_link l (λ x, lk_with_tmap (N.lor (lk_tmap x) (bit_of (radix_of h))) x) ;;;\n", "",
   "tmap bit of a new item is not set", "C18: items are interpreted with their type", FM + FS + ["C18_C19_calls_return_map"]),
 A("M13", "Amt.add_item", "negb (count mod 4 =? 0)%nat) || (d =? 0)", "negb (count mod 8 =? 0)%nat) || (d =? 0)",
   "a full array of four links is not reallocated", "C18: accesses stay in bounds", ["C18_C19_calls_return_map", "C18_C19_calls_return_set"]),
 A("M14", "Amt.add_item", "a <- new_link_array (count + 1) ;;", "a <- new_link_array count ;;",
   "the new array has no room for the new item", "C18: accesses stay in bounds", ["C18_C19_calls_return_map", "C18_C19_calls_return_set"]),
 A("M15", "Amt.add_present", "          upd_root r (λ rt, rt_with_dep (sub64 (rt_dep rt) d) rt) ;;;\n", "",
   "the old depth of the displaced key is not subtracted", "C14: Dep is exact", ["C14_Dep_map", "C14_Dep_set"]),
 A("M16", "Amt.add_present", "          upd_link l (λ x, lk_with_tmap (andnot (lk_tmap x) (bit_of (radix_of h))) x) ;;;\n", "",
   "the tmap bit of a split item is not cleared", "C18: items are interpreted with their type", FM + FS),
 A("M17", "Amt.set_op", "(λ iv, store_val (lk_ptr iv) v)", "(λ iv, ret tt)",
   "Set does not overwrite the value of a stored key", "C01/C30: Set stores the value", FM + ["C30_Set_keeps_key"]),
 A("M18", "Amt.mod_op", "At p => md (At p) true end", "At p => md (At p) false end",
   "Mod passes false for a stored key", "C25: the callback gets the right arguments", ["C25_Mod", "C30_Mod_only_calls_back"]),
 A("M19", "Amt.mod_new", "md p false ;;; ret p", "md p false ;;; md p false ;;; ret p",
   "Mod calls the callback twice for a new key", "C25: the callback is called exactly once", ["C25_Mod"]),
 A("M20", "Amt.collapse", "(count =? 1)%nat && (lk_pmap lv =? lk_tmap lv) && negb (d =? 0)", "(count =? 1)%nat && negb (d =? 0)",
   "a single remaining branch is pulled up like a key-value item", "C22: Del affects no other key", ["C22_Del_map", "C22_Del_set", "C18_C19_calls_return_map"]),
 A("M21", "Amt.collapse", "        upd_root r (λ rt, rt_with_dep (sub64 (rt_dep rt) 1) rt) ;;;\n", "",
   "the depth of a pulled-up key is not decremented", "C14: Dep is exact", ["C14_Dep_map", "C14_Dep_set"]),
 A("M22", "Amt.collapse", "        upd_link l (λ z, lk_with_tmap (N.lor (lk_tmap z) (bit_of radix)) z) ;;;\n", "",
   "the tmap bit of a pulled-up item is not set", "C18: items are interpreted with their type", ["C22_Del_map", "C22_Del_set"]),
 A("M23", "Amt.remove", "  upd_root r (λ rt, rt_with_len (sub64 (rt_len rt) 1) rt) ;;;\n", "",
   "m.len-- is missing", "C13: Len is exact", ["C13_Len_map", "C13_Len_set"]),
 A("M24", "Amt.remove", "  upd_link l (λ y, lk_with_tmap (andnot (lk_tmap y) (bit_of (radix_of h))) y) ;;;\n  upd_root", "  upd_root",
   "the tmap bit of a removed item is not cleared", "C18/C22: later calls see the right items", ["C22_Del_map", "C22_Del_set"]),
 A("M25", "Amt.remove", "  copy_range src (lk_ptr lv) 1 0 idx (count - idx) ;;;", "  copy_range src (lk_ptr lv) 1 0 idx (count - idx - 1) ;;;",
   "one item too few is moved back", "C22: Del affects no other key", ["C22_Del_map", "C22_Del_set"]),
 A("M26", "Amt.remove", "        copy_range src a 0 0 0 idx\n", "        ret tt\n",
   "items before the removed one are not copied to the new array", "C22: Del affects no other key", ["C22_Del_map", "C22_Del_set"]),
 A("M27", "Amt.delete_gen", "          if miss (f_eq F k ck) then ret tt\n          else\n", "          if false then ret tt\n          else\n",
   "Del does not compare the keys", "C31: Del of an absent key changes nothing", ["C31_Del_absent_map", "C31_Del_absent_set", "C31_Del_absent_memory_map"]),
 A("M28", "Amt.scan_items", "      else ret false\n", "      else scan_items rec act l tmap n (S i) (andnot pmap bit)\n",
   "All goes on after the callback returned false", "C15: iteration stops", ["C15_C16_All_map", "C15_C16_All_set"]),
 A("M29", "Amt.scan", "(ones_count32 (lk_pmap lv)) 0 (lk_pmap lv)", "(ones_count32 (lk_pmap lv) - 1) 0 (lk_pmap lv)",
   "All skips the last item of a level", "C15: every entry is visited", ["C15_C16_All_map", "C15_C16_All_set"]),
 A("M30", "Amt.root_dep", "(float_of_N (rt_dep rt)) (float_of_N (rt_len rt))", "(float_of_N (rt_len rt)) (float_of_N (rt_dep rt))",
   "Dep divides the wrong way", "C14: Dep is exact", ["C14_Dep_map", "C14_Dep_set"]),
 A("M31", "Amt.new_root", "(Root (Link (At a) 0 0) seed 0 0", "(Root (Link (At a) 0 0) 0 0 0",
   "the seed is not stored", "C14/C16: digits depend on the seed of the container", ["C14_Dep_map", "C15_C16_All_map"]),
 A("M32", "Amt.new_root", "(replicate 12 (PLink 0 None))", "(replicate 11 (PLink 0 None))",
   "the scratch path has 11 elements while Del assumes 12", "C18: accesses stay in bounds", ["C18_C19_calls_return_map"]),
 A("M33", "Amt.remove", "  p <- path_clear r p (N.to_nat d) ;;\n  lv <- load_link l ;;\n  x <- unlink", "  p <- path_clear r p (S (N.to_nat d)) ;;\n  lv <- load_link l ;;\n  x <- unlink",
   "path[d+1] is cleared instead of path[d]", "C18/C19: Del does not panic", ["C18_C19_calls_return_map", "C18_C19_calls_return_set"]),
 A("M34", "Families.conf_loop", "if cd <=? d then", "if cd <? d then",
   "the conflicting key is hashed once too few at depths divisible by 16", "C01, C28", FM + ["C28_conflict_hash_partial"], file="Families.v"),
 A("M35", "Families.stream_conf", "N.shiftr (mh_sum sum64 hw) (4 * (d mod 16))", "mh_sum sum64 hw",
   "the hash of the conflicting key is not shifted to the current depth", "C01, C28", FM + ["C28_conflict_hash_partial"], file="Families.v"),
 A("M36", "Families.int_leaf", "Definition int_leaf (k : Z) (p : ptr) : link := Link p (int_lo k) (int_hi k).", "Definition int_leaf (k : Z) (p : ptr) : link := Link p (int_hi k) (int_lo k).",
   "the halves of an integer key are swapped when it is stored", "C04, C05", ["C04_IntMap_is_finite_map_partial", "C05_IntSet_is_finite_set_partial", "C04_IntMap_uint32_partial"], file="Families.v"),
 A("M37", "Families.StringMap_Del", "Definition StringMap_Del h k := delete (V:=V) (U:=U) string_fam fuel h k.", "Definition StringMap_Del h k := delete_gen (V:=V) (U:=U) string_fam (λ b, b) fuel h k.",
   "StringMap.Del has the condition of BytesSet.Del", "C01, C31", FM + ["C31_Del_absent_map", "C31_Del_absent_memory_map"], file="Families.v"),
 A("M38", "Families.StringSet_Add", "insert (V:=unit) (U:=U) string_fam (add_op string_fam tt k) fuel h k", "insert (V:=unit) (U:=U) string_fam (with_check (add_op string_fam tt (match k with [] => k | _ :: k' => k' end))) fuel h k",
   "StringSet.Add stores another key than its argument", "C02", FS, file="Families.v"),
 A("M39", "Families.BytesMap_Mod", "insert (V:=V) (U:=U) bytes_fam (with_check (mod_op bytes_fam zero k f)) fuel h k", "insert (V:=V) (U:=U) bytes_fam (with_split (mod_op bytes_fam zero k f) (f_new bytes_fam zero k)) fuel h k",
   "BytesMap.Mod does not call the callback after a collision", "C03, C25", ["C03_BytesMap_is_finite_map", "C25_Mod"], file="Families.v"),
 A("M40", "Amt.add_present", "if io_check op && negb (radix_of ch =? radix_of h)", "if io_check op && (radix_of ch =? radix_of h)",
   "BytesMap treats an unmodified conflicting key as modified", "C03", ["C03_BytesMap_is_finite_map"]),
 A("M41", "Families.ArrSet_Del", "Definition ArrSet_Del h k := delete (V:=unit) (U:=U) AF fuel h k.", "Definition ArrSet_Del h k := delete_gen (V:=unit) (U:=U) AF (λ _, false) fuel h k.",
   "ArrSet.Del removes a colliding key", "C08, C31", ["C08_ArrSet_is_finite_set", "C31_Del_absent_set", "C31_Del_absent_memory_set"], file="Families.v"),
 A("M42", "Families.Map_Val", "Definition Map_Val h k := val (U:=U) GF fuel zero h k.", "Definition Map_Val h k := val (U:=U) GF (fuel - 255) zero h k.",
   "Map.Val gives up below the first levels", "C10, C19", ["C10_C11_Map_is_finite_map_partial", "C18_C19_calls_return_map", "C01_Val"], file="Families.v"),
 A("M43", "Amt.ptr_of", "match lk_ptr iv with Nil => panic | At p => ret (At p) end\n  end.\n\n(** Get", "match lk_ptr iv with Nil => panic | At p => _ <- store_link (RootRef 1) iv ;; ret (At p) end\n  end.\n\n(** Get",
   "Ptr writes memory (a cache)", "C23: reads do not write", ["C23_reads_change_nothing_map", "C23_concurrent_reads_map"]),
 A("M44", "Amt.remove", "   then a <- new_link_array count ;;\n", "   then a <- new_link_array (count - 1) ;;\n",
   "Del reallocates one element too few", "C18: accesses stay in bounds", ["C18_C19_calls_return_map"]),
 A("M45", "Amt.clear_path", "        p <- path_clear r p (N.to_nat d) ;;\n        clear_path fuel r p d", "        clear_path fuel r p d",
   "Del does not clear the scratch path", "C29: no leaks through the scratch path", ["C29_map_partial", "C29_set_partial"]),
 A("M46", "Amt.new_link_array", "(if (capacity <=? 4)%nat then 4\n", "(if (capacity <=? 4)%nat then 8\n",
   "small arrays are allocated with eight elements", "C32: memory is proportional to the entries", ["C32_map", "C32_set"]),
 A("M47", "Hash.hashbytes_loop", "if i <=? u8 iter\n", "if i <? u8 iter\n",
   "HashBytes writes the key once too few", "C27", ["C27_HashBytes_partial"], file="Hash.v"),
 A("M48", "Hash.hash_loop", "if i <=? iter\n", "if i <? iter\n",
   "the Hash methods write the key once too few", "C27", ["C27_Hash_methods"], file="Hash.v"),
 A("M49", "Amt.add_present", "if io_check op && negb (radix_of ch =? radix_of h)", "if false && negb (radix_of ch =? radix_of h)",
   "BytesMap does not notice a modified key", "C34: calls on other keys with overwritten keys in the map", ["C34_calls_return_partial", "C33_C34_map_is_bag_partial"]),
 A("M50", "Amt.mod_op", "(mod_new zero k md) (mod_new zero k md) true false", "(mod_new zero k md) (mod_new zero k md) false false",
   "Mod calls the callback after it moved the other items", "C26, C40: a panic leaves the map intact if no key is in the way", ["C26_Mod_panic_partial", "C26_usable_partial", "C40_programs_map", "C40_separated_map"]),
 A("M51", "Amt.scan_items", "then scan_items rec act l tmap n (S i) (andnot pmap bit)", "then scan_items rec act l tmap n (S i) pmap",
   "All does not go to the next bit of pmap", "C15, C38", ["C15_C16_All_map", "C38_All_is_loop_map", "C40_programs_map", "C40_programs_set"]),
 A("M52", "GoInt.int_join", "Z.lor (Z.of_N pmap) (int64 (Z.shiftl (Z.of_N tmap) 32))", "Z.lor (Z.of_N pmap) (Z.shiftl (Z.of_N tmap) 32)",
   "the upper half of an integer key is not sign extended", "C06", ["C06_int_key_lossless", "C04_IntMap_is_finite_map_partial", "C05_IntSet_is_finite_set_partial"], file="GoInt.v"),
 A("M53", "GoInt.intbytes", "(8 * Z.of_nat i) mod 256)%Z) <$> seq 0 8", "(8 * Z.of_nat i) mod 256)%Z) <$> seq 0 4",
   "integer keys are hashed by their lower half only", "C06: different keys have different bytes", ["C06_intbytes_injective", "C06_intbytes_is_8_bytes"], file="GoInt.v"),
 A("M54", "Amt.root_len", "  | None => ret 0\n", "  | None => panic\n",
   "Len panics on an uninitialised container", "C21", ["C21_nil_len_dep"]),
 A("M55", "Families.gen_fam", "(λ _ seed k ck d, Some (tt, N.shiftr (Hash ck seed (d mod 16)) (4 * (d mod 16))))", "(λ _ seed k ck d, Some (tt, N.shiftr (Hash ck seed (N.shiftr d 4)) (4 * (d mod 16))))",
   "repair: Map.Set and Set.Add hash the conflicting key with the right iteration", "C10, C12: the refutations are about this line", ["Map_Set_refuted", "Set_Add_refuted"], file="Families.v"),
 A("M56", "Families.BytesSet_Del", "delete_gen (V:=unit) (U:=U) bytes_fam (λ b, b) fuel h k", "delete (V:=unit) (U:=U) bytes_fam fuel h k",
   "repair: BytesSet.Del deletes the equal key", "C09, C31: the refutation is about this line", ["BytesSet_Del_refuted"], file="Families.v"),
 A("M57", "Families.ArrMap_Set", "(with_split (set_op AF k v) (f_new AF zero k))", "(with_split (set_op AF k v) (f_new AF ((λ _, v) zero) k))",
   "repair: ArrMap.Set stores the value after a collision", "C07: the refutation is about this line", ["ArrMap_Set_refuted"], file="Families.v"),
 A("M58", "Families.Map_Mod", "insert (V:=V) (U:=U) (gen_mod_fam Equal Hash) (mod_op GF zero k f) fuel h k", "insert (V:=V) (U:=U) GF (mod_op GF zero k f) fuel h k",
   "repair: Map.Mod hashes the conflicting key", "C11: the refutation is about this line", ["Map_Mod_refuted"], file="Families.v"),
 A("M59", "Amt.path_push", "      if (n <? 12)%nat\n", "      if (n <? 13)%nat\n",
   "the scratch path is used beyond its twelve elements", "C18: Del of deep keys", ["C18_C19_calls_return_map", "C18_C19_calls_return_set", "C22_Del_map"]),
 A("M60", "Amt.act_map", "match lk_ptr iv with Nil => panic | At p => do k (At p) end.", "match lk_ptr iv with Nil => panic | At p => x <- load_kv (At p) ;; a <- alloc (BKv x.1 x.2) ;; do k (At a) end.",
   "All passes a pointer to a copy of the value", "C15, C24, C38", ["C15_C16_All_map", "C38_All_is_loop_map", "C37_All_panic_map"]),
 A("M61", "Families.IntSet_Add", "insert (V:=unit) (U:=U) intset_fam (add_op intset_fam tt k) fuel h k", "insert (V:=unit) (U:=U) intset_fam (add_op intset_fam tt k) fuel h (int64 (k + 1))",
   "IntSet.Add hashes and stores the next integer", "C05", ["C05_IntSet_is_finite_set_partial", "C05_IntSet_uint32_partial"], file="Families.v"),
 A("M62", "Families.bytes_fam", "(λ k ck, bool_decide (ck = k)).\n\n(** ArrMap", "(λ k ck, bool_decide (take (length k) ck = k)).\n\n(** ArrMap",
   "BytesMap finds keys of which the argument is a prefix", "C03, C09", ["C03_BytesMap_is_finite_map", "C09_BytesSet_is_finite_set_partial"], file="Families.v"),
 A("M63", "Amt.collapse", "        store_link l x ;;;\n        upd_root", "        store_link l (lk_with_ptr (lk_ptr x) zero_link) ;;;\n        upd_root",
   "a pulled-up item keeps only its pointer", "C04, C05: integer keys are in the other fields", ["C04_IntMap_is_finite_map_partial", "C05_IntSet_is_finite_set_partial"]),
 A("M64", "Families.StringMap_Set", "insert (V:=V) (U:=U) string_fam (set_op string_fam k v) fuel h k", "insert (V:=V) (U:=U) string_fam (with_check (set_op string_fam k v)) (fuel - 200) h k",
   "StringMap.Set gives up on deep keys", "C19: deep keys", ["C01_StringMap_is_finite_map", "C18_C19_calls_return_map"], file="Families.v"),
 A("M65", "Amt.remove", "  copy_range src (lk_ptr lv) 1 0 idx (count - idx) ;;;\n", "  copy_range src (lk_ptr lv) 1 0 idx (count - idx) ;;;\n  store_link (elem src count) zero_link ;;;\n",
   "repair: Del clears the slot that it frees", "C49: the refutation is about the slot that is left", ["C49_refuted", "C49_last_kept", "C49_only_kept"]),
 A("M66", "Amt.add_item", "(negb (count =? 0)%nat && negb (count mod 4 =? 0)%nat) || (d =? 0)", "(negb (count =? 0)%nat && negb (count mod 4 =? 0)%nat)",
   "the array of the root is reallocated though it has 16 slots", "C48: what a new key allocates", ["C48_calls_map", "C48_calls_set", "C48_fill_map"]),
 A("M67", "Amt.new_root", "  a <- alloc (BLinks (replicate 16 zero_link)) ;;\n", "  b <- alloc (BLinks (replicate 16 zero_link)) ;;\n  a <- alloc (BLinks (replicate 16 zero_link)) ;;\n",
   "New makes an array that it does not use", "C48: New allocates two blocks", ["C48_calls_map", "C48_calls_set", "C48_fill_map", "C51_calls_map"]),
 A("M68", "Amt.descend", "      lv <- load_link l ;;\n      if N.land (lk_pmap lv) (bit_of (radix_of h)) =? 0\n", "      lv <- load_link l ;;\n      lv <- load_link l ;;\n      if N.land (lk_pmap lv) (bit_of (radix_of h)) =? 0\n",
   "the traversal reads the link of each level twice", "C51: a lookup takes one access per level", ["C51_calls_map", "C51_calls_set", "C51_mean_map", "C51_mean_set"]),
 A("M69", "Amt.get", "| At _ => x <- load_kv p ;; ret (x.1, true)", "| At _ => x <- load_kv p ;; store_val p x.1 ;;; ret (x.1, true)",
   "Get writes the value back", "C23, C44: concurrent lookups do not race; C51", ["C44_goroutines_map", "C44_accesses_map", "C51_calls_map"]),
 A("M70", "Amt.set_op", "(λ iv, store_val (lk_ptr iv) v)", "(λ iv, store_val (lk_ptr iv) v ;;; a <- alloc (BLinks []) ;; ret tt)",
   "Set of a stored key allocates", "C48: Set of a stored key allocates nothing", ["C48_calls_map", "C48_fill_map"]),
 A("M71", "Amt.remove", "   then a <- new_link_array count ;;\n", "   then a <- new_link_array count ;;\n        b <- new_link_array count ;;\n",
   "Del makes two arrays when it shrinks one", "C48: Del allocates at most one block", ["C48_calls_map", "C48_calls_set"]),
 A("M72", "Amt.remove", "  (if (count mod 4 =? 0)%nat && negb (d =? 0)\n", "  (if false && negb (d =? 0)\n",
   "Del does not shrink arrays", "C32, C45: arrays are no larger than needed", ["C32_map", "C32_set"]),
 A("M73", "Amt.act_map", "  k <- f_key F iv ;;\n  match lk_ptr iv with Nil => panic", "  k <- f_key F iv ;;\n  k <- f_key F iv ;;\n  k <- f_key F iv ;;\n  match lk_ptr iv with Nil => panic",
   "All reads the key of each entry three times", "C51: six accesses per entry", ["C51_calls_map"]),
 A("M74", "Amt.scan", "  | S fuel =>\n      lv <- load_link l ;;\n      scan_items", "  | S fuel =>\n      lv <- load_link l ;;\n      upd_link l (λ x, x) ;;;\n      scan_items",
   "All writes the links back", "C23, C44: concurrent iterations do not race; C51", ["C44_goroutines_map", "C44_goroutines_set", "C44_accesses_map", "C51_calls_map", "C51_calls_set"]),
 A("M75", "Amt.delete_gen", "      | Missing _ _ _ _ _ => ret tt\n      | Present _ hs d l item p =>", "      | Missing _ _ _ _ _ => a <- alloc (BLinks []) ;; ret tt\n      | Present _ hs d l item p =>",
   "Del of an absent key allocates", "C48: Del of a key that is not stored allocates nothing", ["C48_calls_map", "C48_calls_set"]),
 A("M76", "PAmt.descend", "      lv <- load_link l ;;\n      if N.land (lk_pmap lv) (bit_of (radix_of h)) =? 0\n", "      lv <- load_link l ;;\n      lv <- load_link l ;;\n      if N.land (lk_pmap lv) (bit_of (radix_of h)) =? 0\n",
   "the same in the programs of memory accesses only", "C51", ["C51_calls_map", "C51_calls_set", "C51_mean_map", "C51_mean_set"], file="PAmt.v"),
 A("M77", "Amt.collapse", "        store_link l x ;;;\n        upd_root", "        a <- new_link_array 1 ;;\n        store_link (elem a 0) x ;;;\n        store_link l x ;;;\n        upd_root",
   "pulling up an entry makes an array", "C48: Del allocates at most one block", ["C48_calls_map", "C48_calls_set"]),
 A("M78", "Amt.ptr_of", "| Some iv => match lk_ptr iv with Nil => panic | At p => ret (At p) end\n", "| Some iv => match lk_ptr iv with Nil => panic | At p => x <- load_kv (At p) ;; a <- alloc (BKv x.1 x.2) ;; ret (At a) end\n",
   "Ptr returns a pointer to a copy", "C24, C48, C49: Ptr points into the map", ["C24_pointer_write", "C48_calls_map", "C49_stored_kept_partial"]),
 A("M79", "Amt.get", "  p <- ptr_of fuel h k ;;\n  match p with\n  | Nil => ret (zero, false)\n", "  _ <- load_link (SlotRef 1%positive 0) ;;\n  p <- ptr_of fuel h k ;;\n  match p with\n  | Nil => ret (zero, false)\n",
   "Get reads an array at an address that the code remembers where the collector does not look", "C50, C54: no call uses memory that was freed", ["C50_call_map", "C54_history_map", "C54_call_map"]),
 A("M80", "Amt.new_root", "  alloc (BRoot (Root (Link (At a) 0 0) seed 0 0", "  alloc (BRoot (Root (Link (At a) 0 0) (seed + Npos a) 0 0",
   "New mixes the address of the array into the seed", "C16, C54: order and depth do not depend on addresses", ["C15_C16_All_map", "C14_Dep_map", "C54_history_map", "C54_call_map", "C54_history_set"]),
 A("M81", "Amt.new_root", "  alloc (BRoot (Root (Link (At a) 0 0)", "  alloc (BRoot (Root (Link (At 1%positive) 0 0)",
   "all containers start with the array of the first one", "C53: containers share no memory; C22", ["C53_maps", "C53_sets", "C22_New_map", "C54_history_map"]),

 A("M82", "EAmt.eadd_present", "    conf <- e_conf F fuel seed k ck d ;;\n    match conf with\n    | None => hang\n    | Some ch =>\n        upd_link l (λ x, lk_with_tmap (andnot (lk_tmap x) (bit_of (radix_of h))) x) ;;;\n",
   "    upd_link l (λ x, lk_with_tmap (andnot (lk_tmap x) (bit_of (radix_of h))) x) ;;;\n    conf <- e_conf F fuel seed k ck d ;;\n    match conf with\n    | None => hang\n    | Some ch =>\n",
   "the stored key is unlinked before its hash is asked for", "C55: a panic changes nothing", ["C55_history_map_partial", "C55_call_map_partial", "C55_history_set_partial", "C55_call_set_partial"], file="EAmt.v"),
 A("M83", "EAmt.edelete", "      | Present _ hs d l item p =>\n          iv <- load_link item ;;\n          ck <- f_key B iv ;;\n", "      | Present _ hs d l item p =>\n          iv <- load_link item ;;\n          ck <- f_key B iv ;;\n          count_in r 0 ;;;\n",
   "Del changes the length before it asks Equal", "C55: a panic changes nothing", ["C55_history_map_partial", "C55_call_map_partial"], file="EAmt.v"),
 A("M84", "EAmt.efind", "          b <- e_eq F k ck ;;\n          ret (if (b : bool) then Some iv else None)", "          b <- e_eq F k ck ;;\n          b <- e_eq F k ck ;;\n          ret (if (b : bool) then Some iv else None)",
   "Get asks Equal twice", "C56: at most one comparison", ["C56_Equal_map", "C56_compare_map", "C56_Equal_set", "C56_compare_set"], file="EAmt.v"),
 A("M85", "EAmt.efind", "          b <- e_eq F k ck ;;\n          ret (if (b : bool) then Some iv else None)", "          b <- e_eq F ck k ;;\n          ret (if (b : bool) then Some iv else None)",
   "Get asks the stored key, not the given one", "C56: Equal is called on the given key", ["C56_Equal_map", "C56_compare_map", "C56_Equal_set", "C56_compare_set"], file="EAmt.v"),
 A("M86", "EAmt.arr_efam", "       (λ seed k d h, let hw := mh_write h.1.1 h.1.2 in ret ((hw, h.1.2), mh_sum sum64 hw))", "       (λ seed k d h, kb <- meth (KeyBytes k) ;; let hw := mh_write h.1.1 kb in ret ((hw, kb), mh_sum sum64 hw))",
   "rehashing asks for the bytes again", "C56: KeyBytes is called once", ["C56_KeyBytes_map", "C56_KeyBytes_set"], file="EAmt.v"),
 A("M87", "EAmt.gen_efam", "(λ seed k d _, x <- meth (Hash k seed (N.shiftr d 4)) ;; ret (tt, x))", "(λ seed k d _, x <- meth (Hash k seed (N.shiftr d 3)) ;; ret (tt, x))",
   "the second hash is that with iter = 2", "C55: same results; C56: iter = 0, 1, 2, ...", ["C55_history_map_partial", "C56_Hash_map", "C56_Hash_set"], file="EAmt.v"),
 A("M88", "EAmt.gen_efam", "(λ seed k, x <- meth (Hash k seed 0) ;; ret (tt, x))", "(λ seed k, x <- meth (Hash k 0 0) ;; ret (tt, x))",
   "the first hash ignores the seed", "C56: Hash is called with the seed", ["C55_history_map_partial", "C56_Hash_map", "C56_Hash_set"], file="EAmt.v"),
 A("M89", "EAmt.eval", "  match h with\n  | None => ret zero\n  | Some _ =>\n      p <- eptr_of fuel h k ;;\n", "  match h with\n  | None => ret zero\n  | Some _ =>\n      _ <- eptr_of fuel h k ;;\n      p <- eptr_of fuel h k ;;\n",
   "Val looks the key up twice", "C56: at most one comparison", ["C56_Equal_map", "C56_KeyBytes_map", "C56_Hash_map"], file="EAmt.v"),
 A("M90", "EAmt.edescend", "        then h <- eadvance seed k (u8 (d + 1)) h ;;\n             edescend visit fuel seed k h item (u8 (d + 1)) acc", "        then h <- eadvance seed k (d + 1) h ;;\n             edescend visit fuel seed k h item (d + 1) acc",
   "the depth counter does not wrap", "C56: iter stays below 16", ["C56_Hash_map", "C56_Hash_set"], file="EAmt.v"),
 A("M91", "EAmt.einsert", "      hs <- e_start F (rt_seed rt) k ;;\n      res <- edescend no_visit fuel (rt_seed rt) k hs (RootRef r) 0 tt ;;\n      match res with\n      | Missing _ hs d l _ =>\n", "      upd_root r (λ rt, rt_with_len (add64 (rt_len rt) 1) rt) ;;;\n      hs <- e_start F (rt_seed rt) k ;;\n      upd_root r (λ rt, rt_with_len (sub64 (rt_len rt) 1) rt) ;;;\n      res <- edescend no_visit fuel (rt_seed rt) k hs (RootRef r) 0 tt ;;\n      match res with\n      | Missing _ hs d l _ =>\n",
   "the length is raised while the hash is asked for", "C55: a panic changes nothing", ["C55_history_map_partial", "C55_call_map_partial", "C55_history_set_partial", "C55_call_set_partial"], file="EAmt.v"),

 A("M92", "LayoutSpec.slot", "(uintptr p (N.of_nat idx) * linkSize p)", "(uintptr p (N.of_nat idx) * word p)",
   "the index is multiplied by the size of a pointer", "C57: the address is that of the link", ["C57_load", "C57_store", "C57_history_map", "C57_history_set"], file="LayoutSpec.v"),
 A("M93", "LayoutSpec.linkSize", "Definition linkSize (p : platform) : N := size p link_t.", "Definition linkSize (p : platform) : N := word p + 4.",
   "linkSize is that of a link without tmap", "C57: an access touches no other link", ["C57_sizes_64", "C57_sizes_32", "C57_store", "C57_history_map", "C57_history_set"], file="LayoutSpec.v"),
 A("M94", "LayoutSpec.put_pmap", "put_num B (a + pmap_off) 4 x.", "put_num B (a + tmap_off) 4 x.",
   "a write of pmap goes to tmap", "C57: a write to a field changes that field", ["C57_store", "C57_store_field", "C57_history_map"], file="LayoutSpec.v"),
 A("M95", "LayoutSpec.get_link", "(get_num B (a + tmap_off) 4).", "(get_num B (a + tmap_off) 2).",
   "only 16 bits of tmap are read", "C57: a load gives the link that was stored; C04: integer keys are in pmap and tmap", ["C57_store", "C57_history_map", "C57_history_set"], file="LayoutSpec.v"),
 A("M96", "LayoutSpec.put_link", "  put_tmap (put_pmap (put_ptr B a (lk_ptr x)) a (lk_pmap x)) a (lk_tmap x).", "  put_pmap (put_ptr B a (lk_ptr x)) a (lk_pmap x).",
   "copying a link leaves tmap out", "C57: a store gives the slot the link", ["C57_store", "C57_history_map", "C57_history_set"], file="LayoutSpec.v"),
 A("M97", "LayoutSpec.root_fields", "[link_t; seed_t; GUint 8; GUint 8; GArray 3 (GUint 8); GArray 16 link_t; GArray 12 pathLink_t]", "[link_t; seed_t; GUint 8; GUint 8; GArray 2 (GUint 8); GArray 16 link_t; GArray 12 pathLink_t]",
   "the padding of the root is one word short", "C57: items start at 64, a root has 512 bytes", ["C57_sizes_64", "C57_sizes_32"], file="LayoutSpec.v"),
 A("M98", "LayoutSpec.align", "  | GUint n => N.min n (word p)", "  | GUint n => n",
   "uint64 is aligned to 8 bytes on 32-bit platforms", "C57: the sizes on 32-bit platforms", ["C57_sizes_32"], file="LayoutSpec.v"),
 A("M99", "LayoutSpec.get_num", "number_of (fetch B a n).", "value (if big p then fetch B a n else fetch B a n).",
   "numbers are read with the lowest byte first on all platforms", "C57: any order of bytes", ["C57_store", "C57_history_map", "C57_history_set"], file="LayoutSpec.v"),
 A("M100", "LayoutSpec.owns", "  | TLinks n => Npos l <= x < Npos l + size p (array_t (N.of_nat n))", "  | TLinks n => Npos l <= x < Npos l + size p (array_t (N.of_nat (n - 1)))",
   "the allocator gives arrays a link less than they have", "C57: an access touches no other block", ["C57_load", "C57_store", "C57_history_map"], file="LayoutSpec.v"),
 A("M101", "LayoutSpec.size", "      round_up (pad last e) (align (GStruct fs))", "      pad last e",
   "the size of a struct is not rounded up", "C57: elements of arrays are aligned", ["C57_array"], file="LayoutSpec.v"),
 A("M102", "LayoutSpec.size", "      round_up (pad last e) (align (GStruct fs))", "      round_up e (align (GStruct fs))",
   "a struct may end with a field without size", "C57: a field is inside its struct", ["C57_struct"], file="LayoutSpec.v"),
 A("M103", "Amt.float_div", "SFdiv 53 1024 x y.", "SFdiv 24 128 x y.",
   "Dep divides as float32", "C60: Dep is the float64 nearest to the mean", ["C60_nearest_map", "C60_Dep_set"]),
 A("M104", "Amt.float_of_N", "  binary_normalize 53 1024 (Z.of_N n) 0 false.", "  binary_normalize 24 1024 (Z.of_N n) 0 false.",
   "the counters are converted with 24 bits", "C60: an error of at most 2^-51", ["C60_close_map", "C60_Dep_set"]),
 A("M105", "Amt.root_dep", "(float_of_N (rt_dep rt))", "(float_of_N (rt_dep rt mod 2 ^ 32))",
   "the sum of the depths is cut to 32 bits", "C60: the sum does not overflow", ["C60_close_map", "C60_Dep_map", "C60_Dep_set"]),
 A("M106", "EAmt.edescend", "elem (lk_ptr lv) (idx_of (lk_pmap lv) (radix_of h)) in", "elem (lk_ptr lv) (S (idx_of (lk_pmap lv) (radix_of h))) in",
   "the slot after the key's slot is read, which may refer to a removed key", "C59: only stored keys are compared", ["C59_Map", "C59_ArrMap", "C59_Set", "C59_ArrSet"], file="EAmt.v"),
 A("M107", "EAmt.gen_efam", "x <- meth (Hash (if is_mod then k else ck) seed (d mod 16)) ;;", "x <- meth (Hash (if is_mod then k else ck) seed (d mod 16)) ;; _ <- meth (Hash ck 0 0) ;;",
   "the stored key is hashed a second time, with another seed", "C56: which hashes are asked for", ["C56_Hash_map", "C56_Hash_set"], file="EAmt.v"),
 A("M108", "Amt.new_link_array", "(if (capacity <=? 4)%nat then 4\n", "(if (capacity <=? 4)%nat then 3\n",
   "small arrays have three links", "C58 and C57: each key has a link of its own inside the array", ["C58_room_map", "C57_history_map"]),

 A("M109", "EAmt.eadd_present", "    conf <- e_conf F fuel seed k ck d ;;\n", "    (if (d mod 16 =? 0)%N then ret tt else upd_link l (λ x, lk_with_tmap (andnot (lk_tmap x) (bit_of (radix_of h))) x)) ;;;\n    conf <- e_conf F fuel seed k ck d ;;\n",
   "below the root the stored key is unlinked before it is hashed", "C55: a panic of Hash with iter other than 0 changes nothing outside of a split", ["C55_history_map_partial", "C55_history_set_partial"], file="EAmt.v"),
 A("M110", "EAmt.esplit", "      ch <- eadvance seed ck d ch ;;\n", "      upd_link item (lk_with_pmap 0) ;;;\n      ch <- eadvance seed ck d ch ;;\n      _ <- (if (d <? 16)%N then eadvance seed ck 16 ch else ret ch) ;;\n",
   "the stored key is hashed again in a split although it is not needed", "C55: keys that differ in the first 16 digits can be added although Hash panics with iter = 1", ["C55_history_map_partial", "C55_history_set_partial"], file="EAmt.v"),
]
