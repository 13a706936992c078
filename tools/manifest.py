"""Regenerates MANIFEST.json: one entry per property."""
import json, os

CLAIMS = [
    ("C01", "proved", ["C01_StringMap_is_finite_map", "C01_StringMap_separated", "contents_exist", "C01_stored_iff_last_write", "C01_Val", "C01_Ptr"], ""),
    ("C02", "proved", ["C02_StringSet_is_finite_set", "C02_StringSet_separated", "members_exist"], ""),
    ("C03", "proved", ["C03_BytesMap_is_finite_map", "C03_BytesMap_separated"], ""),
    ("C04", "partial", ["C04_IntMap_is_finite_map_partial", "C04_IntMap_separated_partial", "C04_IntMap_uint32_partial", "IntMap_int64_refuted", "C04_stale_lost"],
     "Refuted when a key outside 0..2^32-1 has to move down two or more levels; proved for all other calls. C04_stale_lost: "
     "in every such state in which the stale bit is set, the call loses both keys."),
    ("C05", "partial", ["C05_IntSet_is_finite_set_partial", "C05_IntSet_separated_partial",
                        "C05_IntSet_uint32_partial", "IntSet_int64_refuted", "C05_stale_lost"],
     "As C04."),
    ("C06", "proved", ["C06_int_key_lossless", "C06_int_key_halves_fit", "C06_intbytes_injective",
                       "C06_intbytes_is_8_bytes"], ""),
    ("C07", "partial", ["C07_ArrMap_is_finite_map_partial", "C07_ArrMap_exact_partial",
                        "C07_ArrMap_exact_separated_partial", "ArrMap_Set_refuted"],
     "Refuted: Set drops the value after a collision; proved for all other calls. The exact theorems say what Set does instead."),
    ("C08", "proved", ["C08_ArrSet_is_finite_set", "C08_ArrSet_separated"], ""),
    ("C09", "partial", ["C09_BytesSet_is_finite_set_partial", "C09_BytesSet_separated_partial",
                        "C09_BytesSet_exact_partial", "C09_BytesSet_exact_separated_partial", "C09_Del_keeps_partial",
                        "C09_way_unique", "BytesSet_Del_refuted"],
     "Refuted: Del has its condition inverted; proved for all other calls. The exact theorems say what Del does instead."),
    ("C10", "partial", ["C10_C11_Map_is_finite_map_partial", "C10_Map_separated_partial", "Map_Set_refuted", "C10_Set_misplaces"],
     "Refuted when the key in the way has another hash for the wrong iter; proved for all other calls. C10_Set_misplaces "
     "says for every execution what such a call does: the key in the way is lost, all other keys are as expected."),
    ("C11", "partial", ["C10_C11_Map_is_finite_map_partial", "Map_Mod_refuted", "C11_Mod_misplaces"],
     "Refuted when a key with another hash is in the way; proved for all other calls. C11_Mod_misplaces says for every "
     "execution what such a call does: the key in the way is lost, all other keys are as expected."),
    ("C12", "partial", ["C12_Set_is_finite_set_partial", "C12_Set_separated_partial", "Set_Add_refuted", "C12_Add_misplaces"],
     "Refuted when the key in the way has another hash for the wrong iter; proved for all other calls. C12_Add_misplaces "
     "says for every execution what such a call does: the key in the way is lost, all other keys are as expected."),
    ("C13", "proved", ["C13_Len_map", "C13_Len_set"], ""),
    ("C14", "proved", ["C14_Dep_map", "C14_Dep_set"], ""),
    ("C15", "proved", ["C15_C16_All_map", "C15_calls_map", "C15_C16_All_set", "C15_calls_set"], ""),
    ("C16", "proved", ["C15_C16_All_map", "C16_C17_same_keys_map", "C15_C16_All_set", "C16_C17_same_keys_set"], ""),
    ("C17", "proved", ["C16_C17_same_keys_map", "C16_C17_same_keys_set"], ""),
    ("C18", "proved", ["C18_C19_calls_return_map", "C18_C19_calls_return_set"], ""),
    ("C19", "proved", ["C18_C19_calls_return_map", "C18_C19_calls_return_set"], ""),
    ("C20", "partial", ["C20_map_partial", "C20_set_partial", "C20_ArrMap_nan_partial", "C20_ArrSet_nan_partial",
                        "C20_IntMap_partial", "C20_IntSet_partial", "C20_Map_partial", "C20_Set_partial",
                        "Map_Set_alike_refuted", "Map_Mod_alike_refuted", "Set_Add_alike_refuted"],
     "For the string, byte slice and ArrKey types in every state that calls lead to with at most 255 levels, without any "
     "assumption about hashes and equality. For IntMap and IntSet after calls that avoid the wrong split of C04 and C05. "
     "False of the generic Map and Set, whose rehash with the wrong iteration separates keys that have the same digits "
     "(the three refutations); proved for them where that rehash makes no difference."),
    ("C21", "proved", ["C21_nil_len_dep", "C21_StringMap", "C21_BytesMap", "C21_IntMap", "C21_ArrMap",
                       "C21_Map", "C21_sets"], ""),
    ("C22", "proved", ["C22_New_map", "C22_Set_map", "C25_Mod", "C22_Del_map", "C15_C16_All_map", "C24_pointer_write",
                       "C22_New_set", "C22_Add_set", "C22_Del_set", "C15_C16_All_set"],
     "A copy of a map value is the same handle, so sharing is by construction."),
    ("C23", "proved", ["C23_reads_change_nothing_map", "C23_All_changes_no_memory_map", "C23_All_nested_reads_map",
                       "C23_concurrent_reads_map", "C23_reads_change_nothing_set", "C23_All_changes_no_memory_set",
                       "C23_All_nested_reads_set", "C23_concurrent_reads_set"], ""),
    ("C24", "proved", ["C24_pointer_valid", "C24_pointer_write", "C24_pointer_stale"], ""),
    ("C25", "proved", ["C25_Mod"], ""),
    ("C26", "partial", ["C26_Mod_panic_partial", "C26_usable_partial", "StringMap_Mod_panic_refuted",
                        "BytesMap_Mod_panic_refuted", "IntMap_Mod_panic_refuted", "ArrMap_Mod_panic_refuted",
                        "Map_Mod_panic_refuted", "C26_hindered_lost"],
     "Holds when the key is stored or no stored key has to be moved down for it, also after earlier panics. False "
     "otherwise: the callback then runs in the middle of the split, and the stored key is lost (five refutations). "
     "C26_hindered_lost: it is lost in every execution in which a stored key is in the way."),
    ("C27", "partial", ["C27_Hash_methods", "C27_HashBytes_partial", "C27_HashBytes_255_refuted",
                        "C27_HashBytes_large_refuted", "C27_Hash_max_refuted"],
     "Holds for iter < 255; HashBytes hangs at iter = 255 (mod 256) and truncates iter to 8 bits."),
    ("C28", "partial", ["C28_conflict_hash_partial", "C28_conflict_hash_refuted"],
     "Holds for depths below 240; the rehash loop never ends for depths 240..255."),
    ("C30", "proved", ["C30_Set_keeps_key", "C30_Mod_only_calls_back", "C30_Set_stored", "C30_Add_present"], ""),
    ("C31", "partial", ["C31_Del_absent_map", "C31_Del_absent_set", "C31_Del_absent_memory_map", "C31_Del_absent_memory_set",
                        "BytesSet_Del_refuted"],
     "Proved for all types but BytesSet, where Del of an absent key removes another key."),
    ("C29", "partial", ["C29_map_partial", "C29_set_partial", "C29_refuted", "C29_deep_refuted"],
     "Holds while Del is called only with stored keys of depth below 12; refuted for absent keys that share a digit with a stored one and for depths of 12 and more."),
    ("C32", "proved", ["C32_map", "C32_set"], ""),
    ("C33", "partial", ["C33_Map_Set_Get_partial", "C33_Set_map_partial", "C33_Mod_map_partial", "C33_C34_Len_All_map_partial",
                        "C33_C34_map_is_bag_partial", "C33_C34_set_is_bag_partial", "C33_C34_Len_All_set_partial",
                        "C33_Add_set_partial", "Map_deep_refuted"],
     "Proved for all Hash functions and equalities, for keys that equal themselves, while no level is deeper than 254. Refuted beyond: the uint8 depth wraps and Del corrupts the tree (Map_deep_refuted)."),
    ("C34", "partial", ["C34_calls_return_partial", "C33_C34_map_is_bag_partial", "C33_C34_Len_All_map_partial",
                        "C34_other_calls_partial", "C34_other_overwritten_partial", "C34_other_keys_found_partial",
                        "C34_other_keys_value_partial", "StringMap_deep_refuted"],
     "Proved for arbitrary overwrites of stored keys between calls, while no level is deeper than 254."),
    ("C35", "proved", ["C35_other_item_map", "C35_no_loop_map", "C35_other_item_set", "C35_no_loop_set"],
     "BytesSet.Del is not among the calls considered."),
    ("C36", "partial", ["C36_String_Bytes_partial", "C36_refuted", "C36_missing_method"],
     "Refuted for Int, which has no Equal method; proved for String and Bytes."),
    ("C37", "proved", ["C37_All_panic_map", "C37_All_panic_set"], ""),
    ("C38", "proved", ["C38_All_is_loop_map", "C38_executions_map", "C38_All_is_loop_set", "C38_executions_set"],
     "Callbacks that use containers with another key or value type are outside the model."),
    ("C39", "partial", ["C39_change_and_stop_partial", "C39_delete_visited_refuted", "C39_add_unsafe_refuted"],
     "False: deleting the visited key and going on skips and repeats entries; adding a key and going on can use a branch as an entry. Holds if the callback stops after the change."),
    ("C40", "proved", ["C40_programs_map", "C40_separated_map", "C40_programs_set", "C40_separated_set"],
     "A program uses maps of one type or sets of one type; C46 is about programs with several types."),
    ("C41", "partial", ["C41_read_inside_refuted", "C41_add_inside_refuted", "C41_hindered_read", "C40_programs_map"],
     "False: if a stored key is in the way of the new one, reading the map in the callback panics or misses the key; if none is, adding a key in the callback can lose stored keys. C41_hindered_read proves the former for every execution. C40_programs_map covers what holds: any use if the key is stored already, and any use that adds and deletes no keys if no stored key is in the way."),
    ("C42", "proved", ["C42_least_depth_map", "C42_mean_depth_map", "C42_least_depth_set", "C42_mean_depth_set",
                       "C42_great_depth", "C42_unseparated"],
     "The upper bound is an average over seeds for a hash that spreads the keys; that a real hash function does so is an assumption of the theorem."),
    ("C43", "proved", ["C43_lookup_rounds_map", "C43_stored_rounds_map", "C43_lookup_rounds_set", "C43_stored_rounds_set"], ""),
    ("C44", "proved", ["C44_goroutines_map", "C44_goroutines_set", "C44_schedules_end", "C44_schedules_agree", "C44_schedules_agree_set",
                       "C44_accesses_map", "C44_accesses_set", "C44_starts_exist", "C44_reader_misses_refuted",
                       "C44_Del_absent_races", "C44_two_writers_refuted"],
     "The goroutines use maps of one type or sets of one type. The last three theorems show that the condition is needed: a Get next to a Set can miss a stored key, two Dels of absent keys write the same memory, and one of two Sets can be lost."),
    ("C45", "proved", ["C45_arrays_map", "C45_linear_map", "C45_arrays_set", "C45_linear_set", "C45_branches_depth", "C45_mean_branches"],
     "The average is over seeds, for a hash that spreads the keys; that a real hash function does so is an assumption of the theorem."),
    ("C46", "proved", ["C46_programs", "C46_separated"], ""),
    ("C47", "proved", ["C47_fork_join_map", "C47_fork_join_set", "C47_goroutines_map", "C47_goroutines_set",
                       "C47_all_return_map", "C47_all_return_set"],
     "The program and its goroutines use maps of one type or sets of one type. While goroutines run, the program itself only waits."),
    ("C48", "proved", ["C48_calls_map", "C48_fill_map", "C48_linear_map", "C48_calls_set", "C48_fill_set", "C48_linear_set",
                       "C48_new_key_depth"],
     "Upper bounds on the number of blocks of the model: arrays of links, structs of entries, roots (a root and its array count as two). IntSet has no structs and stays below the bound."),
    ("C49", "partial", ["C49_stored_kept_partial", "C49_without_Del_partial", "C49_was_stored_partial", "C49_last_kept", "C49_only_kept", "C49_refuted"],
     "Proved for all states: what Ptr returns is reachable from the map. A map on which Del was never called keeps only the structs of stored keys (C49_without_Del_partial), and every map only structs that were stored in it (C49_was_stored_partial). That removed ones are not kept is false of the code: Del shifts items back and leaves the last slot of the array as it was. C49_last_kept: in every state, the removed struct stays reachable if no other stored key has the same or a greater first digit (C49_only_kept: if it was the only key). C49_refuted: an empty map from which the structs of five removed keys can be reached, through an array that it no longer uses."),
    ("C50", "proved", ["C50_history_map", "C50_history_set", "C50_call_map", "C50_call_set"],
     "Collections happen between calls, not inside one. Freed addresses are not used again. Values, keys and the user's own state hold no pointers to containers of the same type. The bytes of keys are part of the links and structs, not blocks of their own."),
    ("C51", "proved", ["C51_calls_map", "C51_bounded_map", "C51_mean_map", "C51_calls_set", "C51_bounded_set", "C51_mean_set"],
     "Counts the accesses of the programs of PAmt.v, which do what the methods do (part of C51_calls_map and C51_calls_set). Writing a field counts as a read and a write of its block. C51_reached shows that the bound of a lookup is exact. The constants of the other bounds are not the least possible ones."),
    ("C52", "proved", ["C52_locked_map", "C52_no_deadlock_map", "C52_locked_set", "C52_no_deadlock_set", "C52_Del_needs_Lock"],
     "One lock for all containers of one type. The lock is a specification (one writer or any number of readers), not the code of sync.RWMutex, and the accesses are sequentially consistent. A goroutine's local state is its own. Fairness is not part of it: that every goroutine that waits gets the lock at some time depends on the lock."),
    ("C53", "proved", ["C53_maps", "C53_sets"],
     "All containers of a program have the same type. Values, keys and the user's own state hold no pointers to the memory of containers."),
    ("C54", "proved", ["C54_history_map", "C54_history_set", "C54_beside_map", "C54_beside_set", "C54_call_map", "C54_call_set"],
     "That a call has an address is defined by what it can still do with it (it does the same whatever other addresses stand for), not by the contents of registers and stack frames: a compiler that keeps a dead pointer alive frees less, which is also allowed. A pointer from Ptr keeps its cell, as Go's interior pointers do. All containers of a program have the same type. The history theorems hold for any calls; the call theorems, which say that every call ends, for sound ones."),
    ("C55", "partial", ["C55_history_map_partial", "C55_call_map_partial", "C55_keyless_map_partial", "C55_history_set_partial", "C55_call_set_partial", "C55_keyless_set_partial", "C55_Map_deep_refuted", "C55_Set_deep_refuted"],
     "Missing: a Hash that panics in the middle of a split, when Set, Mod or Add of a new key finds a stored key in its way that agrees with it in 16 or more digits and both are hashed again. The full claim is false of the code (_refuted): the stored key is then no longer linked, and a panic loses it, although Len still counts it. Proved for all other panics of Hash, with any iter, and for all panics of Equal, KeyBytes and ==. The key methods do not use the containers."),
    ("C56", "proved", ["C56_Equal_map", "C56_compare_map", "C56_KeyBytes_map", "C56_Hash_map", "C56_Hash_keyless_map", "C56_Equal_set", "C56_compare_set", "C56_KeyBytes_set", "C56_Hash_set", "C56_Hash_keyless_set"],
     "The methods note their calls in a log in their own state. Callbacks do not call the methods."),
    ("C57", "proved", ["C57_sizes_64", "C57_sizes_32", "C57_struct", "C57_array", "C57_value_first", "C57_load", "C57_store", "C57_store_field", "C57_root_link", "C57_write_is_store", "C57_history_map", "C57_history_set", "C57_fits_map", "C57_fits_set", "C57_call_map", "C57_call_set"],
     "Only links are bytes; keys, values, len, dep, seed and the scratch path, which the code uses through typed pointers, are not. The rules of the compiler are written down in LayoutSpec.v and trusted."),
    ("C58", "proved", ["C58_room_map", "C58_Len_map", "C58_room_set", "C58_Len_set"],
     "With the memory of bytes of C57."),
    ("C59", "proved", ["C59_Map", "C59_ArrMap", "C59_Set", "C59_ArrSet"],
     "The methods note the keys in a log in their own state. Hash may panic only when it is called with iter = 0 (as in C55)."),
    ("C60", "proved", ["C60_nearest_map", "C60_close_map", "C60_Dep_map", "C60_nearest_set", "C60_close_set", "C60_Dep_set"],
     "Uses the axioms of the standard library's real numbers, through Flocq. nearest_exact (DepFloat.v) is the remark in parentheses. Which of two equally near float64 is taken is part of C14, not of nearest."),
]

path = os.path.join(os.path.dirname(__file__), "..", "MANIFEST.json")
with open(path, "w") as f:
    json.dump({"claims": [{"property": p, "status": s, "theorems": t, "note": n}
                          for p, s, t, n in CLAIMS]}, f, indent=1)
    f.write("\n")
