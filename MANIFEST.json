{
 "claims": [
  {
   "property": "C01",
   "status": "proved",
   "theorems": [
    "C01_ipv4_to_bytes",
    "C01_ipv4_from_bytes",
    "C01_ipv4_from_netip",
    "C01_ipv6_to_bytes",
    "C01_ipv6_from_bytes",
    "C01_ipv6_words"
   ],
   "note": ""
  },
  {
   "property": "C02",
   "status": "proved",
   "theorems": [
    "C02_uint128_exact"
   ],
   "note": "negative shift counts are not modelled: Go panics on them and no caller produces one"
  },
  {
   "property": "C03",
   "status": "proved",
   "theorems": [
    "C03_masks",
    "C03_ipv4_forms",
    "C03_ipv6_forms"
   ],
   "note": ""
  },
  {
   "property": "C04",
   "status": "proved",
   "theorems": [
    "C04_network",
    "C04_network_ipv6",
    "C04_mask"
   ],
   "note": ""
  },
  {
   "property": "C05",
   "status": "proved",
   "theorems": [
    "C05_halves",
    "C05_halves_ipv6"
   ],
   "note": ""
  },
  {
   "property": "C06",
   "status": "proved",
   "theorems": [
    "C06_minus",
    "C06_minus_ipv6"
   ],
   "note": ""
  },
  {
   "property": "C07",
   "status": "partial",
   "theorems": [
    "C07_plus_partial",
    "C07_plus_ipv6_partial",
    "C07_plus_union_partial",
    "C07_refuted"
   ],
   "note": "false as stated when the lower range ends at the last address: its successor wraps to 0"
  },
  {
   "property": "C08",
   "status": "proved",
   "theorems": [
    "C08_table_is_a_map",
    "C08_host_bits",
    "C08_get_stored"
   ],
   "note": "every history of writes; all results and later reads"
  },
  {
   "property": "C09",
   "status": "partial",
   "theorems": [
    "C09_remove_partial",
    "C09_refuted"
   ],
   "note": "false as stated: Remove of a join-node prefix returns true (C09_refuted); everything else holds"
  },
  {
   "property": "C10",
   "status": "proved",
   "theorems": [
    "C10_longest_match",
    "C10_longest_match_host"
   ],
   "note": ""
  },
  {
   "property": "C11",
   "status": "proved",
   "theorems": [
    "C11_walk"
   ],
   "note": ""
  },
  {
   "property": "C12",
   "status": "proved",
   "theorems": [
    "C12_num_entries"
   ],
   "note": ""
  },
  {
   "property": "C13",
   "status": "proved",
   "theorems": [
    "C13_diff_exact"
   ],
   "note": ""
  },
  {
   "property": "C14",
   "status": "partial",
   "theorems": [
    "C14_diff_order_exact_partial",
    "C14_order_determines",
    "C14_diff_order_partial",
    "C14_refuted"
   ],
   "note": "false as stated: removed and added prefixes of disjoint subtrees are swapped in one precisely characterised case (DiffSpec.swapped), proved to be the only one; the exact order of every Diff is proved"
  },
  {
   "property": "C15",
   "status": "proved",
   "theorems": [
    "C15_skip_unobservable"
   ],
   "note": ""
  },
  {
   "property": "C16",
   "status": "partial",
   "theorems": [
    "C16_aggregate_partial",
    "C16_aggregate_exact_partial",
    "C16_aggregate_unnested_partial",
    "C16_aggregate_total",
    "C16_aggregate_function",
    "C16_refuted"
   ],
   "note": "false as stated: merging siblings drops grandchildren; exact under a stated side condition; C16_aggregate_function says what is computed for every table, as a function of the map alone"
  },
  {
   "property": "C17",
   "status": "partial",
   "theorems": [
    "C17_not_larger_partial",
    "C17_single_value_partial",
    "C17_single_value_minimal_partial",
    "C17_single_value_unique_partial",
    "C17_single_value_idempotent_partial",
    "C17_minimal_refuted",
    "C17_idempotent_refuted"
   ],
   "note": "false as stated: neither minimal nor idempotent; both hold for tables whose values are all the same"
  },
  {
   "property": "C18",
   "status": "partial",
   "theorems": [
    "C18_aggregated_table_partial",
    "C18_refuted",
    "C18_custom_comparator_refuted"
   ],
   "note": "false as stated: the comparator is dropped"
  },
  {
   "property": "C19",
   "status": "partial",
   "theorems": [
    "C19_map_partial",
    "C19_refuted"
   ],
   "note": "false as stated: the mapper is also invoked on join nodes"
  },
  {
   "property": "C20",
   "status": "proved",
   "theorems": [
    "C20_call_changes_no_node",
    "C20_set_call_changes_no_node",
    "C20_snapshots_are_immutable",
    "C20_set_snapshots_are_immutable",
    "C20_denotes_unique",
    "C20_table_calls_compute",
    "C20_table_builders_compute",
    "C20_set_calls_compute",
    "C20_tables_read_again",
    "C20_tables_nodes",
    "C20_sets_read_again",
    "C20_sets_nodes"
   ],
   "note": "pointer-level model: every node reachable before a call has the same contents after it (and at every intermediate instruction); with any number of threads, racing writers included, an immutable table or set keeps its nodes and its answers"
  },
  {
   "property": "C21",
   "status": "proved",
   "theorems": [
    "C21_tables_sequential",
    "C21_sets_sequential",
    "C21_tables_write",
    "C21_tables_snapshot",
    "C21_tables_clone",
    "C21_tables_build",
    "C21_sets_write",
    "C21_sets_snapshot",
    "C21_sets_clone",
    "C21_sets_build"
   ],
   "note": "C21_*_sequential: every program of one thread over any number of handles, snapshots and clones returns what the specification returns; the _write/_snapshot/_clone theorems spell out what that specification says; with several threads: C37"
  },
  {
   "property": "C22",
   "status": "partial",
   "theorems": [
    "C22_uninitialised_set",
    "C22_nil_set",
    "C22_uninitialised_table",
    "C22_nil_prefix",
    "C22_tables_exec",
    "C22_sets_exec",
    "C22_find_nil_refuted"
   ],
   "note": "false as stated for one call: FindAvailablePrefix panics on a nil reserved set; everything else proved"
  },
  {
   "property": "C23",
   "status": "proved",
   "theorems": [
    "C23_argument",
    "C23_union",
    "C23_intersection",
    "C23_difference",
    "C23_insert_remove",
    "C23_insert_contained",
    "C23_remove_disjoint"
   ],
   "note": "for range arguments the addresses are those of r.Set(), see C29"
  },
  {
   "property": "C24",
   "status": "proved",
   "theorems": [
    "C24_histories"
   ],
   "note": "arguments: all but centred ranges (C29)"
  },
  {
   "property": "C25",
   "status": "partial",
   "theorems": [
    "C25_equal_stored",
    "C25_equal_sound",
    "C25_equal_partial",
    "C25_canonical_kept",
    "C25_refuted"
   ],
   "note": "false as stated: Equal compares host bits of stored prefixes; the converse holds for sets without host bits, and operations keep sets so"
  },
  {
   "property": "C26",
   "status": "proved",
   "theorems": [
    "C26_walk_prefixes",
    "C26_minimal"
   ],
   "note": ""
  },
  {
   "property": "C27",
   "status": "proved",
   "theorems": [
    "C27_cardinality",
    "C27_set_"
   ],
   "note": ""
  },
  {
   "property": "C28",
   "status": "proved",
   "theorems": [
    "C28_contains",
    "C28_contains_address",
    "C28_prefix_contains"
   ],
   "note": ""
  },
  {
   "property": "C29",
   "status": "partial",
   "theorems": [
    "C29_range_set_partial",
    "C29_centred_becomes_block",
    "C29_range_contains_partial",
    "C29_range_num_prefixes_partial",
    "C29_range_num_addresses_partial",
    "C29_refuted"
   ],
   "note": "false as stated: a range short of an aligned block by the same amount at both ends becomes the whole block; exact for all other ranges"
  },
  {
   "property": "C30",
   "status": "proved",
   "theorems": [
    "C30_walk_ranges"
   ],
   "note": ""
  },
  {
   "property": "C31",
   "status": "partial",
   "theorems": [
    "C31_walk_addresses_partial",
    "C31_wraps_around",
    "C31_refuted"
   ],
   "note": "false as stated: with 255.255.255.255 in the set the loop wraps to 0.0.0.0 and never ends; right otherwise"
  },
  {
   "property": "C32",
   "status": "partial",
   "theorems": [
    "C32_v4_partial",
    "C32_v6_partial",
    "C32_prefix",
    "C32_prefix_num_addresses",
    "C32_refuted"
   ],
   "note": "false as stated: IPv4 reports no error for lengths beyond 32, nor IPv6 for an empty set; the counts are exact"
  },
  {
   "property": "C33",
   "status": "partial",
   "theorems": [
    "C33_find_sound_complete",
    "C33_refuted"
   ],
   "note": "for every length up to the address size; beyond it the call returns an invalid prefix instead of an error"
  },
  {
   "property": "C34",
   "status": "proved",
   "theorems": [
    "C34_best_fit"
   ],
   "note": ""
  },
  {
   "property": "C35",
   "status": "proved",
   "theorems": [
    "C35_tables_valid",
    "C35_no_panic",
    "C35_sets_valid"
   ],
   "note": "sets: that no operation panics is part of C23-C34"
  },
  {
   "property": "C36",
   "status": "proved",
   "theorems": [
    "C36_bounded_depth",
    "C36_height"
   ],
   "note": ""
  },
  {
   "property": "C37",
   "status": "proved",
   "theorems": [
    "C37_tables",
    "C37_sets"
   ],
   "note": "linearizability: every execution with non-overlapping writers per handle and any number of readers has the same visible events as an execution of the atomic specification; sequentially consistent memory"
  },
  {
   "property": "C38",
   "status": "partial",
   "theorems": [
    "C38_tables_unmixed",
    "C38_sets_unmixed",
    "C38_tables_any_schedule",
    "C38_sets_any_schedule",
    "C38_tables_without_remove",
    "C38_tables_partial",
    "C38_sets_partial",
    "C38_tables_refuted",
    "C38_sets_refuted"
   ],
   "note": "false as stated: updates are lost when the root changes between the two loads of mutate (tables: Remove racing with Insert; sets: A-B-A); proved with no condition on the schedule when no handle is used for both adding and removing (C38_*_unmixed), in general when the root does not change between these two loads, and on every schedule the machine of ConcWeak.v bounds what can happen (C38_*_any_schedule)"
  },
  {
   "property": "C39",
   "status": "proved",
   "theorems": [
    "C39_prefix_from_address_mask",
    "C39_range_from_addresses",
    "C39_address_from_netip",
    "C39_mask_from_netipmask",
    "C39_prefix_from_netipnet",
    "C39_round_trips",
    "C39_accessors"
   ],
   "note": ""
  },
  {
   "property": "C40",
   "status": "proved",
   "theorems": [
    "C40_order",
    "C40_order_ipv6"
   ],
   "note": ""
  },
  {
   "property": "C41",
   "status": "proved",
   "theorems": [
    "C41_netipnet_ipv4",
    "C41_netipnet_ipv6"
   ],
   "note": ""
  },
  {
   "property": "C42",
   "status": "partial",
   "theorems": [
    "C42_uncomparable_values_refuted",
    "C20_table_calls_compute"
   ],
   "note": "false as stated: inserting beneath an entry of an uncomparable type panics; the positive part (types that == can compare) is C20_table_calls_compute"
  },
  {
   "property": "C43",
   "status": "proved",
   "theorems": [
    "C43_ipv4_address",
    "C43_ipv4_address_exact",
    "C43_ipv4_prefix_exact",
    "C43_ipv4_prefix"
   ],
   "note": "the parsers of package net are modelled as of Go 1.18; with a colon the ipv4 parser also takes v4-mapped text (example C43_mapped_accepted)"
  },
  {
   "property": "C44",
   "status": "partial",
   "theorems": [
    "C44_ipv6_roundtrip_partial",
    "C44_ip_roundtrip_partial",
    "C44_mapped_refuted",
    "C44_parse_sound"
   ],
   "note": "false as stated for v4-mapped IPv6 addresses (::ffff:0:0/96): their text is a dotted quad, which ipv6 refuses and ip takes for IPv4; proved for all others"
  },
  {
   "property": "C45",
   "status": "proved",
   "theorems": [
    "C45_ipv6_canonical",
    "C45_text_injective"
   ],
   "note": ""
  },
  {
   "property": "C46",
   "status": "proved",
   "theorems": [
    "C46_mask_text",
    "C46_range_text",
    "C46_set_text",
    "C46_set_text_determines"
   ],
   "note": ""
  },
  {
   "property": "C47",
   "status": "proved",
   "theorems": [
    "C47_text_exact",
    "C47_prefix_exact"
   ],
   "note": "the parsers of package net are modelled as of Go 1.18"
  },
  {
   "property": "C48",
   "status": "proved",
   "theorems": [
    "C48_table_is_a_map",
    "C48_remove",
    "C48_longest_match",
    "C48_walk",
    "C48_num_entries",
    "C48_diff_exact",
    "C48_aggregate",
    "C48_map",
    "C48_tables_valid",
    "C48_union",
    "C48_intersection",
    "C48_difference",
    "C48_insert_remove",
    "C48_set_histories",
    "C48_contains",
    "C48_equal",
    "C48_is_empty",
    "C48_walk_prefixes",
    "C48_walk_ranges",
    "C48_num_prefixes",
    "C48_count_prefixes",
    "C48_count_exists",
    "C48_prefix_num_prefixes",
    "C48_range_num_prefixes",
    "C48_find",
    "C48_best_fit",
    "C48_sets_valid",
    "C48_prefix_contains",
    "C48_range_set",
    "C48_range_contains",
    "C48_uninitialised_set",
    "C48_set_handles",
    "C48_diff_order",
    "C48_uninitialised_table",
    "C48_table_handles",
    "C48_build",
    "C48_clone"
   ],
   "note": "about the literal model of the ipv6 files (Trie6, SetNode6, Table6, SetApi6); the set laws are for arguments that are addresses, prefixes, sets or ranges other than those of C29, as in C23-C30"
  },
  {
   "property": "C49",
   "status": "proved",
   "theorems": [
    "C49_tables_replies",
    "C49_sets_replies"
   ],
   "note": "with the two exceptions of the statement; a call that ran out of fuel in the model would reply RStuck, so this also says that the fuel suffices"
  },
  {
   "property": "C50",
   "status": "proved",
   "theorems": [
    "C50_tables_bounded",
    "C50_tables_bounded_all",
    "C50_tables_never_blocked",
    "C50_tables_finish_alone",
    "C50_sets_bounded",
    "C50_sets_bounded_all",
    "C50_sets_never_blocked",
    "C50_sets_finish_alone"
   ],
   "note": "steps are node loads, stores and allocations, loads of the root, the compare-and-swap and the return; callbacks and comparators count nothing; with C49 the bounds are not those of the fuel"
  },
  {
   "property": "C51",
   "status": "proved",
   "theorems": [
    "C51_table_modifications",
    "C51_table_lookups",
    "C51_table_walk",
    "C51_table_diff",
    "C51_set_insert",
    "C51_set_remove",
    "C51_set_contains_address",
    "C51_set_walk",
    "C51_set_union",
    "C51_set_reads",
    "C51_set_difference",
    "C51_set_intersection"
   ],
   "note": "instructions of the heap model: node loads, stores and allocations"
  },
  {
   "property": "C52",
   "status": "partial",
   "theorems": [
    "C52_remove",
    "C52_insert_partial",
    "C52_insert_dropped",
    "C52_insert_refuted",
    "C52_remove6",
    "C52_insert6_partial",
    "C52_insert6_dropped"
   ],
   "note": "Insert is false of the code (C52_insert_refuted): a prefix both of whose halves meet the set without being filled is dropped; proved that this is exactly when, and that otherwise Insert is Union"
  },
  {
   "property": "C53",
   "status": "proved",
   "theorems": [
    "C53_diff_shared",
    "C53_diff_after_changes"
   ],
   "note": "loads of the heap model; sharing shown with reaches, the history with edits"
  },
  {
   "property": "C54",
   "status": "proved",
   "theorems": [
    "C54_set_memory",
    "C54_table_memory",
    "C54_snapshot_memory"
   ],
   "note": "nodes reachable in the heap model (reaches, occupies)"
  },
  {
   "property": "C55",
   "status": "proved",
   "theorems": [
    "C55_walk",
    "C55_diff",
    "C55_map",
    "C55_remove_while_walking",
    "C55_set_walk"
   ],
   "note": "heap model with callbacks that are programs (HeapCb.v); the callbacks of one thread: with several threads see C37"
  },
  {
   "property": "C56",
   "status": "proved",
   "theorems": [
    "C56_same_table",
    "C56_diff_is_free",
    "C56_difference_disjoint"
   ],
   "note": "heap model; that a prefix without entry is not always reported by Remove is C09"
  }
 ]
}