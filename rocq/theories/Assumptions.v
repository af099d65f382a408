(* Assumptions.v - generated by tools/assumptions.py.  Prints what every theorem of
   the manifest rests on; each line of output must be "Closed under the global context". *)
From Verif Require ExConc ExHeap ExSet ExSet2 ExTable PropsAgg PropsAgg2 PropsCb PropsConc PropsCost PropsCost2 PropsCost3 PropsDiff PropsHeap PropsIp PropsMem PropsSame PropsSame2 PropsSet PropsSet2 PropsTable PropsText PropsV6 PropsV6b PropsValues PropsWait PropsWeak.
Print Assumptions PropsValues.C01_ipv4_to_bytes.
Print Assumptions PropsValues.C01_ipv4_from_bytes.
Print Assumptions PropsValues.C01_ipv4_from_netip.
Print Assumptions PropsValues.C01_ipv6_to_bytes.
Print Assumptions PropsValues.C01_ipv6_from_bytes.
Print Assumptions PropsValues.C01_ipv6_words.
Print Assumptions PropsValues.C02_uint128_exact.
Print Assumptions PropsValues.C03_masks.
Print Assumptions PropsValues.C03_ipv4_forms.
Print Assumptions PropsValues.C03_ipv6_forms.
Print Assumptions PropsValues.C04_network.
Print Assumptions PropsValues.C04_network_ipv6.
Print Assumptions PropsValues.C04_mask.
Print Assumptions PropsValues.C05_halves.
Print Assumptions PropsValues.C05_halves_ipv6.
Print Assumptions PropsValues.C06_minus.
Print Assumptions PropsValues.C06_minus_ipv6.
Print Assumptions PropsValues.C07_plus_partial.
Print Assumptions PropsValues.C07_plus_ipv6_partial.
Print Assumptions PropsValues.C07_plus_union_partial.
Print Assumptions PropsValues.C07_refuted.
Print Assumptions PropsTable.C08_table_is_a_map.
Print Assumptions PropsTable.C08_host_bits.
Print Assumptions PropsTable.C08_get_stored.
Print Assumptions PropsTable.C09_remove_partial.
Print Assumptions ExTable.C09_refuted.
Print Assumptions PropsTable.C10_longest_match.
Print Assumptions PropsTable.C10_longest_match_host.
Print Assumptions PropsTable.C11_walk.
Print Assumptions PropsTable.C12_num_entries.
Print Assumptions PropsTable.C13_diff_exact.
Print Assumptions PropsDiff.C14_diff_order_exact_partial.
Print Assumptions PropsDiff.C14_order_determines.
Print Assumptions PropsTable.C14_diff_order_partial.
Print Assumptions ExTable.C14_refuted.
Print Assumptions PropsTable.C15_skip_unobservable.
Print Assumptions PropsAgg.C16_aggregate_partial.
Print Assumptions PropsAgg.C16_aggregate_exact_partial.
Print Assumptions PropsAgg.C16_aggregate_unnested_partial.
Print Assumptions PropsAgg.C16_aggregate_total.
Print Assumptions PropsAgg2.C16_aggregate_function.
Print Assumptions ExTable.C16_refuted.
Print Assumptions PropsAgg.C17_not_larger_partial.
Print Assumptions PropsAgg2.C17_single_value_partial.
Print Assumptions PropsAgg2.C17_single_value_minimal_partial.
Print Assumptions PropsAgg2.C17_single_value_unique_partial.
Print Assumptions PropsAgg2.C17_single_value_idempotent_partial.
Print Assumptions ExTable.C17_minimal_refuted.
Print Assumptions ExTable.C17_idempotent_refuted.
Print Assumptions PropsAgg.C18_aggregated_table_partial.
Print Assumptions ExTable.C18_refuted.
Print Assumptions ExTable.C18_custom_comparator_refuted.
Print Assumptions PropsAgg.C19_map_partial.
Print Assumptions ExTable.C19_refuted.
Print Assumptions PropsHeap.C20_call_changes_no_node.
Print Assumptions PropsHeap.C20_set_call_changes_no_node.
Print Assumptions PropsHeap.C20_snapshots_are_immutable.
Print Assumptions PropsHeap.C20_set_snapshots_are_immutable.
Print Assumptions PropsHeap.C20_denotes_unique.
Print Assumptions PropsHeap.C20_table_calls_compute.
Print Assumptions PropsHeap.C20_table_builders_compute.
Print Assumptions PropsHeap.C20_set_calls_compute.
Print Assumptions PropsConc.C20_tables_read_again.
Print Assumptions PropsConc.C20_tables_nodes.
Print Assumptions PropsConc.C20_sets_read_again.
Print Assumptions PropsConc.C20_sets_nodes.
Print Assumptions PropsConc.C21_tables_sequential.
Print Assumptions PropsConc.C21_sets_sequential.
Print Assumptions PropsConc.C21_tables_write.
Print Assumptions PropsConc.C21_tables_snapshot.
Print Assumptions PropsConc.C21_tables_clone.
Print Assumptions PropsConc.C21_tables_build.
Print Assumptions PropsConc.C21_sets_write.
Print Assumptions PropsConc.C21_sets_snapshot.
Print Assumptions PropsConc.C21_sets_clone.
Print Assumptions PropsConc.C21_sets_build.
Print Assumptions PropsSet.C22_uninitialised_set.
Print Assumptions PropsSet.C22_nil_set.
Print Assumptions PropsConc.C22_uninitialised_table.
Print Assumptions PropsConc.C22_nil_prefix.
Print Assumptions PropsConc.C22_tables_exec.
Print Assumptions PropsConc.C22_sets_exec.
Print Assumptions PropsSet.C22_find_nil_refuted.
Print Assumptions PropsSet.C23_argument.
Print Assumptions PropsSet.C23_union.
Print Assumptions PropsSet.C23_intersection.
Print Assumptions PropsSet.C23_difference.
Print Assumptions PropsSet.C23_insert_remove.
Print Assumptions PropsSet.C23_insert_contained.
Print Assumptions PropsSet.C23_remove_disjoint.
Print Assumptions PropsSet.C24_histories.
Print Assumptions PropsSet.C25_equal_stored.
Print Assumptions PropsSet.C25_equal_sound.
Print Assumptions PropsSet.C25_equal_partial.
Print Assumptions PropsSet.C25_canonical_kept.
Print Assumptions ExSet.C25_refuted.
Print Assumptions PropsSet.C26_walk_prefixes.
Print Assumptions PropsSet.C26_minimal.
Print Assumptions PropsSet.C27_cardinality.
Print Assumptions PropsSet.C27_set_.
Print Assumptions PropsSet.C28_contains.
Print Assumptions PropsSet.C28_contains_address.
Print Assumptions PropsSet.C28_prefix_contains.
Print Assumptions PropsSet.C29_range_set_partial.
Print Assumptions PropsSet.C29_centred_becomes_block.
Print Assumptions PropsSet.C29_range_contains_partial.
Print Assumptions PropsSet.C29_range_num_prefixes_partial.
Print Assumptions PropsSet.C29_range_num_addresses_partial.
Print Assumptions ExSet.C29_refuted.
Print Assumptions PropsSet.C30_walk_ranges.
Print Assumptions PropsSet.C31_walk_addresses_partial.
Print Assumptions PropsSet.C31_wraps_around.
Print Assumptions ExSet.C31_refuted.
Print Assumptions PropsSet.C32_v4_partial.
Print Assumptions PropsSet.C32_v6_partial.
Print Assumptions PropsSet.C32_prefix.
Print Assumptions PropsSet.C32_prefix_num_addresses.
Print Assumptions ExSet.C32_refuted.
Print Assumptions PropsSet.C33_find_sound_complete.
Print Assumptions ExSet.C33_refuted.
Print Assumptions PropsSet.C34_best_fit.
Print Assumptions PropsTable.C35_tables_valid.
Print Assumptions PropsTable.C35_no_panic.
Print Assumptions PropsSet.C35_sets_valid.
Print Assumptions PropsCost.C36_bounded_depth.
Print Assumptions PropsCost.C36_height.
Print Assumptions PropsConc.C37_tables.
Print Assumptions PropsConc.C37_sets.
Print Assumptions PropsConc.C38_tables_unmixed.
Print Assumptions PropsConc.C38_sets_unmixed.
Print Assumptions PropsWeak.C38_tables_any_schedule.
Print Assumptions PropsWeak.C38_sets_any_schedule.
Print Assumptions PropsConc.C38_tables_without_remove.
Print Assumptions PropsConc.C38_tables_partial.
Print Assumptions PropsConc.C38_sets_partial.
Print Assumptions ExConc.C38_tables_refuted.
Print Assumptions ExConc.C38_sets_refuted.
Print Assumptions PropsIp.C39_prefix_from_address_mask.
Print Assumptions PropsIp.C39_range_from_addresses.
Print Assumptions PropsIp.C39_address_from_netip.
Print Assumptions PropsIp.C39_mask_from_netipmask.
Print Assumptions PropsIp.C39_prefix_from_netipnet.
Print Assumptions PropsIp.C39_round_trips.
Print Assumptions PropsIp.C39_accessors.
Print Assumptions PropsValues.C40_order.
Print Assumptions PropsValues.C40_order_ipv6.
Print Assumptions PropsValues.C41_netipnet_ipv4.
Print Assumptions PropsValues.C41_netipnet_ipv6.
Print Assumptions ExHeap.C42_uncomparable_values_refuted.
Print Assumptions PropsText.C43_ipv4_address.
Print Assumptions PropsText.C43_ipv4_address_exact.
Print Assumptions PropsText.C43_ipv4_prefix_exact.
Print Assumptions PropsText.C43_ipv4_prefix.
Print Assumptions PropsText.C44_ipv6_roundtrip_partial.
Print Assumptions PropsText.C44_ip_roundtrip_partial.
Print Assumptions PropsText.C44_mapped_refuted.
Print Assumptions PropsText.C44_parse_sound.
Print Assumptions PropsText.C45_ipv6_canonical.
Print Assumptions PropsText.C45_text_injective.
Print Assumptions PropsText.C46_mask_text.
Print Assumptions PropsText.C46_range_text.
Print Assumptions PropsText.C46_set_text.
Print Assumptions PropsText.C46_set_text_determines.
Print Assumptions PropsText.C47_text_exact.
Print Assumptions PropsText.C47_prefix_exact.
Print Assumptions PropsV6.C48_table_is_a_map.
Print Assumptions PropsV6.C48_remove.
Print Assumptions PropsV6.C48_longest_match.
Print Assumptions PropsV6.C48_walk.
Print Assumptions PropsV6.C48_num_entries.
Print Assumptions PropsV6.C48_diff_exact.
Print Assumptions PropsV6.C48_aggregate.
Print Assumptions PropsV6.C48_map.
Print Assumptions PropsV6.C48_tables_valid.
Print Assumptions PropsV6.C48_union.
Print Assumptions PropsV6.C48_intersection.
Print Assumptions PropsV6.C48_difference.
Print Assumptions PropsV6.C48_insert_remove.
Print Assumptions PropsV6.C48_set_histories.
Print Assumptions PropsV6.C48_contains.
Print Assumptions PropsV6.C48_equal.
Print Assumptions PropsV6.C48_is_empty.
Print Assumptions PropsV6.C48_walk_prefixes.
Print Assumptions PropsV6.C48_walk_ranges.
Print Assumptions PropsV6.C48_num_prefixes.
Print Assumptions PropsV6b.C48_count_prefixes.
Print Assumptions PropsV6b.C48_count_exists.
Print Assumptions PropsV6b.C48_prefix_num_prefixes.
Print Assumptions PropsV6b.C48_range_num_prefixes.
Print Assumptions PropsV6.C48_find.
Print Assumptions PropsV6b.C48_best_fit.
Print Assumptions PropsV6.C48_sets_valid.
Print Assumptions PropsV6b.C48_prefix_contains.
Print Assumptions PropsV6b.C48_range_set.
Print Assumptions PropsV6b.C48_range_contains.
Print Assumptions PropsV6b.C48_uninitialised_set.
Print Assumptions PropsV6b.C48_set_handles.
Print Assumptions PropsV6b.C48_diff_order.
Print Assumptions PropsV6b.C48_uninitialised_table.
Print Assumptions PropsV6b.C48_table_handles.
Print Assumptions PropsV6b.C48_build.
Print Assumptions PropsV6b.C48_clone.
Print Assumptions PropsWeak.C49_tables_replies.
Print Assumptions PropsWeak.C49_sets_replies.
Print Assumptions PropsWait.C50_tables_bounded.
Print Assumptions PropsWait.C50_tables_bounded_all.
Print Assumptions PropsWait.C50_tables_never_blocked.
Print Assumptions PropsWait.C50_tables_finish_alone.
Print Assumptions PropsWait.C50_sets_bounded.
Print Assumptions PropsWait.C50_sets_bounded_all.
Print Assumptions PropsWait.C50_sets_never_blocked.
Print Assumptions PropsWait.C50_sets_finish_alone.
Print Assumptions PropsCost2.C51_table_modifications.
Print Assumptions PropsCost2.C51_table_lookups.
Print Assumptions PropsCost2.C51_table_walk.
Print Assumptions PropsCost2.C51_table_diff.
Print Assumptions PropsCost2.C51_set_insert.
Print Assumptions PropsCost2.C51_set_remove.
Print Assumptions PropsCost2.C51_set_contains_address.
Print Assumptions PropsCost2.C51_set_walk.
Print Assumptions PropsCost2.C51_set_union.
Print Assumptions PropsCost2.C51_set_reads.
Print Assumptions PropsCost2.C51_set_difference.
Print Assumptions PropsCost2.C51_set_intersection.
Print Assumptions PropsSet2.C52_remove.
Print Assumptions PropsSet2.C52_insert_partial.
Print Assumptions PropsSet2.C52_insert_dropped.
Print Assumptions ExSet2.C52_insert_refuted.
Print Assumptions PropsSet2.C52_remove6.
Print Assumptions PropsSet2.C52_insert6_partial.
Print Assumptions PropsSet2.C52_insert6_dropped.
Print Assumptions PropsCost3.C53_diff_shared.
Print Assumptions PropsCost3.C53_diff_after_changes.
Print Assumptions PropsMem.C54_set_memory.
Print Assumptions PropsMem.C54_table_memory.
Print Assumptions PropsMem.C54_snapshot_memory.
Print Assumptions PropsCb.C55_walk.
Print Assumptions PropsCb.C55_diff.
Print Assumptions PropsCb.C55_map.
Print Assumptions PropsCb.C55_remove_while_walking.
Print Assumptions PropsCb.C55_set_walk.
Print Assumptions PropsSame.C56_same_table.
Print Assumptions PropsSame.C56_diff_is_free.
Print Assumptions PropsSame2.C56_difference_disjoint.
