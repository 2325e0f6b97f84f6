{
 "claims": [
  {
   "property": "C01",
   "status": "proved",
   "theorems": [
    "C01_roundtrip",
    "C01_roundtrip_back",
    "C01_rejects",
    "C01_one_character_refuted"
   ],
   "note": "One-character alphabets never terminate (refuted variant)."
  },
  {
   "property": "C02",
   "status": "proved",
   "theorems": [
    "C02_steps",
    "C02_collation"
   ],
   "note": ""
  },
  {
   "property": "C03",
   "status": "partial",
   "theorems": [
    "C03_invariant",
    "C03_unique",
    "C03_histories",
    "C03_histories_room",
    "C03_room_refuted"
   ],
   "note": "Proved for every history whose moves are made while two steps are free after the last sibling; without that the claim is false (C03_room_refuted)."
  },
  {
   "property": "C04",
   "status": "proved",
   "theorems": [
    "C04_add_root",
    "C04_add_child",
    "C04_add_sibling",
    "C04_add_sibling_position",
    "C04_unsorted_siblings_refuted"
   ],
   "note": "Sorted insertion needs siblings that are split by the new value (implied by sortedness); refuted without."
  },
  {
   "property": "C05",
   "status": "partial",
   "theorems": [
    "C05_move",
    "C05_stays",
    "C05_room_refuted",
    "C05_integrity_refuted"
   ],
   "note": "Proved when two steps are free behind the siblings (only needed for moves within one sibling list); refuted without."
  },
  {
   "property": "C06",
   "status": "proved",
   "theorems": [
    "C06_delete",
    "C06_delete_node"
   ],
   "note": ""
  },
  {
   "property": "C07",
   "status": "proved",
   "theorems": [
    "C07_tree",
    "C07_roots",
    "C07_children",
    "C07_siblings",
    "C07_descendants",
    "C07_ancestors",
    "C07_parent",
    "C07_predicates"
   ],
   "note": ""
  },
  {
   "property": "C08",
   "status": "partial",
   "theorems": [
    "C08_overflow",
    "C08_needless_overflow_refuted",
    "C08_max_length_refuted",
    "C03_room_refuted"
   ],
   "note": "Proved for adds, deletes, and for moves with room for the temporary path; move checks neither the temporary path nor max_length (refuted)."
  },
  {
   "property": "C09",
   "status": "partial",
   "theorems": [
    "C09_clean",
    "C09_exact_partial",
    "C09_exact_refuted"
   ],
   "note": "Exact for tables whose rows have non-empty paths with non-zero last steps; refuted otherwise."
  },
  {
   "property": "C10",
   "status": "proved",
   "theorems": [
    "C10_fix_tree",
    "C10_fix_branch"
   ],
   "note": ""
  },
  {
   "property": "C11",
   "status": "proved",
   "theorems": [
    "C11_fix_paths",
    "C11_fix_branch",
    "C11_overflow_refuted",
    "C14_fix_tree"
   ],
   "note": "For every table with intact paths, whatever depth and numchild are; also for one branch. With node_order_by it can raise PathOverflow when there is no room beyond the last siblings (the refuted theorem has such a table); then the steps are not renumbered. Missing values of an order column come first (databases differ)."
  },
  {
   "property": "C12",
   "status": "proved",
   "theorems": [
    "C12_dump",
    "C12_round_trip",
    "C12_load_last",
    "C12_load_any",
    "C12_missing_id",
    "append_means",
    "C12_al_dump",
    "C12_al_load",
    "C12_al_round_trip",
    "C12_lt_dump",
    "C12_lt_load_below",
    "C12_lt_load_partial",
    "C12_lt_round_trip_refuted"
   ],
   "note": "dump_bulk is the stored forest or branch; the round trip holds for every stored table whose paths fit the column; loading below a parent appends (PathOverflow only when it does not fit). Many-to-many data is not modelled. Also for adjacency lists and ltree (with or without node_order_by: C12_lt_load_partial, up to the order of siblings; C12_lt_round_trip_refuted)."
  },
  {
   "property": "C13",
   "status": "partial",
   "theorems": [
    "C13_bulk_create_partial",
    "C13_same_partial",
    "C13_sorted_refuted",
    "C13_wide_refuted",
    "C13_deep_refuted"
   ],
   "note": "Proved when the new nodes come in the order of the model and every list of children fits in the steps. False otherwise: with node_order_by and first-level data out of order the table gets corrupt; too many children or too long paths are not noticed."
  },
  {
   "property": "C14",
   "status": "proved",
   "theorems": [
    "C14_add_sibling",
    "C14_add_root",
    "C14_add_child",
    "C14_move",
    "C14_fix_tree",
    "C14_delete"
   ],
   "note": ""
  },
  {
   "property": "C15",
   "status": "proved",
   "theorems": [
    "C15_sorted_histories",
    "C15_sorted_add",
    "C03_histories",
    "C16_histories"
   ],
   "note": "On the forest specification; the materialized path and nested sets models refine it."
  },
  {
   "property": "C16",
   "status": "proved",
   "theorems": [
    "C16_histories",
    "C16_call"
   ],
   "note": ""
  },
  {
   "property": "C17",
   "status": "proved",
   "theorems": [
    "C17_add_root",
    "C17_add_child",
    "C17_add_sibling"
   ],
   "note": ""
  },
  {
   "property": "C18",
   "status": "proved",
   "theorems": [
    "C18_move",
    "C18_stays"
   ],
   "note": ""
  },
  {
   "property": "C19",
   "status": "proved",
   "theorems": [
    "C19_delete",
    "C19_delete_node"
   ],
   "note": ""
  },
  {
   "property": "C20",
   "status": "proved",
   "theorems": [
    "C20_tree",
    "C20_roots",
    "C20_children",
    "C20_siblings",
    "C20_descendants",
    "C20_ancestors",
    "C20_parent",
    "C20_predicates"
   ],
   "note": ""
  },
  {
   "property": "C21",
   "status": "proved",
   "theorems": [
    "C21_exact",
    "C21_no_false_alarm",
    "C21_gaps_refuted",
    "C21_root_refuted"
   ],
   "note": ""
  },
  {
   "property": "C22",
   "status": "proved",
   "theorems": [
    "C22_dump",
    "C22_round_trip",
    "C22_load_last",
    "C22_load_any"
   ],
   "note": ""
  },
  {
   "property": "C23",
   "status": "proved",
   "theorems": [
    "C23_add_sibling",
    "C23_add_root",
    "C23_add_child",
    "C23_move",
    "C23_delete"
   ],
   "note": ""
  },
  {
   "property": "C24",
   "status": "partial",
   "theorems": [
    "C24_mp_add_child",
    "C24_mp_move",
    "C24_ns_move",
    "C24_ns_add_child_partial",
    "C24_mp_move_refuted",
    "C24_ns_add_child_refuted",
    "C24_ns_stale_parent_refuted",
    "C24_al_move_partial",
    "C24_al_add_child",
    "C24_al_target_refuted",
    "C24_al_target_right_refuted",
    "C24_lt_move"
   ],
   "note": "The claim is false for several calls (refuted); the true parts are proved."
  },
  {
   "property": "C25",
   "status": "proved",
   "theorems": [
    "C25_histories",
    "C25_call",
    "C25_integrity",
    "C25_add_root",
    "C25_add_child",
    "C25_add_sibling",
    "C25_delete"
   ],
   "note": "Includes deletion. With node_order_by the new data must have values in the ordering fields."
  },
  {
   "property": "C26",
   "status": "proved",
   "theorems": [
    "C26_move"
   ],
   "note": ""
  },
  {
   "property": "C27",
   "status": "partial",
   "theorems": [
    "C27_reads",
    "C27_ties",
    "C27_ancestors",
    "C27_parent",
    "C27_predicates",
    "C27_neighbours_partial",
    "C27_neighbours_refuted",
    "C27_stale_levels_refuted"
   ],
   "note": "All queries; with node_order_by and equal siblings up to the order of equals; next/prev sibling raise AttributeError with node_order_by (refuted); levels wrong for objects with an outdated cached depth (refuted)."
  },
  {
   "property": "C28",
   "status": "partial",
   "theorems": [
    "C28_update",
    "C28_after_move_partial",
    "C28_add_child",
    "C28_after_move_refuted"
   ],
   "note": "False: the cached depth is not cleared by move (refuted); exactly what is reported is proved. C28_update is about ALModel, which follows node.parent in the database; for cached parent objects see C50."
  },
  {
   "property": "C29",
   "status": "proved",
   "theorems": [
    "C29_label",
    "C29_constraints",
    "C29_found",
    "C29_free",
    "C29_order_refuted",
    "C29_roots_refuted"
   ],
   "note": "Also: labels without bounds are not generated in sort order, and there are only 702 of them (refuted as expectations)."
  },
  {
   "property": "C30",
   "status": "partial",
   "theorems": [
    "C30_rows",
    "C30_unique",
    "C30_histories_partial",
    "C30_histories_calm",
    "C30_histories_room_partial",
    "C30_call_partial",
    "C30_add_root_partial",
    "C30_add_child",
    "C30_add_child_partial",
    "C30_add_last_sibling",
    "C30_add_sibling_partial",
    "C30_add_root_refuted",
    "C30_sorted_refuted",
    "C30_add_sibling_refuted",
    "C30_histories_refuted",
    "C30_room_refuted"
   ],
   "note": "False in general (refuted): parent and set of siblings are always right, the order of siblings exactly at calm places; unsorted add_child and last-sibling always."
  },
  {
   "property": "C31",
   "status": "partial",
   "theorems": [
    "C31_move_partial",
    "C31_move_last",
    "C31_move_refuted"
   ],
   "note": "As for C30: the branch always gets the right parent; order exact at calm places and at the end of a list, refuted otherwise."
  },
  {
   "property": "C32",
   "status": "proved",
   "theorems": [
    "C32_delete",
    "C32_delete_signal",
    "C32_delete_node",
    "C32_tree",
    "C32_roots",
    "C32_children",
    "C32_siblings",
    "C32_descendants",
    "C32_ancestors",
    "C32_parent",
    "C32_predicates"
   ],
   "note": ""
  },
  {
   "property": "C33",
   "status": "proved",
   "theorems": [
    "C33_stored",
    "C33_roundtrip",
    "C33_text",
    "C33_database",
    "C33_validator",
    "C33_generated",
    "C33_order",
    "C33_injective",
    "C33_blank_refuted",
    "C33_newline_refuted"
   ],
   "note": "8-bit characters."
  },
  {
   "property": "C34",
   "status": "proved",
   "theorems": [
    "C34_positions"
   ],
   "note": ""
  },
  {
   "property": "C35",
   "status": "proved",
   "theorems": [
    "C35_filter"
   ],
   "note": ""
  },
  {
   "property": "C36",
   "status": "proved",
   "theorems": [
    "C36_loop",
    "C36_levels",
    "C36_mp",
    "C36_ns",
    "C36_al",
    "C36_lt",
    "C36_al_limit",
    "C36_lt_limit",
    "C36_relative_refuted",
    "C36_gaps_refuted"
   ],
   "note": "The rendered template of get_annotated_list is the nested list of the branch and the levels are right, for all four implementations. max_depth: absolute level for MP and NS (0 = no limit), AttributeError for AL, FieldError for LT. Documented limits of get_annotated_list_qs with gaps and the relative reading of max_depth are refuted."
  },
  {
   "property": "C37",
   "status": "partial",
   "theorems": [
    "C07_tree",
    "C07_descendants",
    "C20_tree",
    "C20_descendants",
    "C37_ns_zero_refuted",
    "C37_al_partial",
    "C27_reads",
    "C37_al_zero_refuted",
    "C37_lt_partial",
    "C32_tree",
    "C32_descendants",
    "C37_lt_zero_refuted"
   ],
   "note": "MP for every depth; NS, AL and ltree for every positive depth (0 means unlimited there, refuted)."
  },
  {
   "property": "C38",
   "status": "proved",
   "theorems": [
    "C38_mp_no_move_inside",
    "C38_ns_no_move_inside",
    "C38_al_no_move_inside",
    "C38_lt_no_move_inside"
   ],
   "note": "All four implementations."
  },
  {
   "property": "C39",
   "status": "proved",
   "theorems": [
    "C39_all_calls",
    "C39_successful_calls",
    "C39_same_answers"
   ],
   "note": "Materialized paths, nested sets and adjacency lists. Materialized paths need key space (C39_all_calls) or moves with room (C39_successful_calls)."
  },
  {
   "property": "C40",
   "status": "partial",
   "theorems": [
    "C40_mp",
    "C40_mp_delete_partial",
    "C40_mp_delete_end",
    "C40_mp_delete_roots",
    "C40_mp_fix",
    "C40_mp_delete_refuted",
    "C40_other_database_refuted",
    "C40_default_database",
    "C40_ns",
    "C40_ns_delete_partial",
    "C40_ns_delete_end",
    "C40_ns_delete_refuted",
    "C40_al",
    "C40_lt"
   ],
   "note": "Proved for all adding and moving calls of the four backends and for adjacency list and ltree deletes. False for materialized path and nested set deletes, which run outside a transaction (refuted by example). For those it is proved what a crash can leave behind: with materialized paths only numchild differs and fix_tree restores the table exactly; with nested sets gaps in the numbering that leave find_problems and the reads of tree, roots, children, ancestors and descendants right. Also refuted for a model in a database other than the default one, where the transaction does not cover the statements."
  },
  {
   "property": "C41",
   "status": "partial",
   "theorems": [
    "C41_mp_partial",
    "C41_lt_partial",
    "C41_ns_trees_partial",
    "C41_al_partial",
    "C41_al_one_parent_partial",
    "C41_mp_sorted_refuted",
    "C41_mp_add_root_refuted",
    "C41_mp_delete_refuted",
    "C41_ns_refuted",
    "C41_ns_add_root_refuted",
    "C41_al_refuted",
    "C41_al_moves_refuted"
   ],
   "note": "Small-step READ COMMITTED semantics with row locks, any number of transactions, any schedule. Proved for add_child of mp_tree.py and the ltree backend without node_order_by: at every moment the committed rows and exceptions are those of the finished calls one at a time in finishing order, and all can always finish. The same for nested sets when any two calls have one parent or work in different trees, and for adjacency lists with node_order_by or with different parents; adjacency lists without node_order_by have the rows of the serial order apart from sib_order. The claim is false for the others: sorted MP add_child and NS add_child corrupt the tree, MP add_root can fail, NS add_root gives one tree_id to two trees, AL add_child gives equal sib_order. Beyond add_child: delete concurrent with add_child leaves an orphan (MP), two moves make a loop (AL)."
  },
  {
   "property": "C42",
   "status": "partial",
   "theorems": [
    "C42_positions",
    "C42_shown",
    "C42_mp_initial",
    "C42_mp_choices",
    "C42_mp_unchanged",
    "C42_mp_edit",
    "C42_mp_create",
    "C42_ns_initial",
    "C42_ns_choices",
    "C42_ns_unchanged",
    "C42_ns_edit",
    "C42_ns_create_partial",
    "C42_al_initial",
    "C42_al_choices",
    "C42_al_unchanged",
    "C42_al_edit",
    "C42_al_create",
    "C42_lt_initial",
    "C42_lt_choices",
    "C42_lt_unchanged",
    "C42_lt_edit_partial",
    "C42_lt_create_partial",
    "C42_mp_edit_sorted",
    "C42_mp_kept_sorted",
    "C42_mp_ascending",
    "C42_ns_edit_sorted",
    "C42_ns_kept_sorted",
    "C42_ns_ascending",
    "C42_al_edit_sorted",
    "C42_lt_edit_sorted_partial",
    "C42_lt_kept_sorted",
    "C42_lt_create_sorted_partial",
    "C42_ns_create_refuted",
    "C42_sorted_edit_refuted"
   ],
   "note": "Submitting the initial values leaves the tree as it is, all four implementations. Creation: proved for MP and AL; for nested sets false in general (left/right of a node with children that is a last child: IndexError, refuted), proved for all other reference nodes; ltree with and without node_order_by, order exact at calm places only. Editing in a sorted tree: the node gets its new values and its place in the order whenever the form moves it (MP, NS, LT: the position, the reference node or an ascending column was changed), always for AL and always for MP and NS with only ascending columns (MP: alphabet in code point order, else C51_edit_refuted); after a change of a descending column alone MP, NS and LT do not re-sort (refuted)."
  },
  {
   "property": "C43",
   "status": "proved",
   "theorems": [
    "C43_create_args"
   ],
   "note": ""
  },
  {
   "property": "C44",
   "status": "proved",
   "theorems": [
    "C44_mp_group_counts",
    "C44_ns_group_counts",
    "C44_al_group_counts",
    "C44_lt_group_counts"
   ],
   "note": "All four implementations; adjacency lists with node_order_by need siblings without ties."
  },
  {
   "property": "C45",
   "status": "partial",
   "theorems": [
    "C45_listed",
    "C45_mp_list",
    "C45_mp_drag",
    "C45_ns_list",
    "C45_ns_drag",
    "C45_al_list",
    "C45_al_list_ties",
    "C45_al_drag",
    "C45_lt_list",
    "C45_lt_drag_partial",
    "C45_lt_drag_refuted"
   ],
   "note": "The list of a parent is exactly its children (or the roots) with level and has-children, for all four backends; an unknown parent is a 404. Dragging: child is last child, sibling is left of the target, sorted positions in sorted trees; into the own branch is refused with the tree unchanged; materialized paths may refuse with PathOverflow. Ltree: siblings may be reordered and a missing label is an uncaught exception (refuted). Search, filters and orderings chosen in the admin see C60, permissions C55, pages C57, inherited models C49."
  },
  {
   "property": "C46",
   "status": "proved",
   "theorems": [
    "C46_add_root",
    "C46_add_child",
    "C46_add_sibling",
    "C46_move",
    "C46_delete"
   ],
   "note": "The listener is the definition hear in LTSignals.v, written from docs/source/ltree.rst. nodes_deleted is documented to carry a list of PathValue; the code sends a set of strings."
  },
  {
   "property": "C47",
   "status": "partial",
   "theorems": [
    "C47_calm",
    "C47_room_partial",
    "C47_answers",
    "C47_refuted"
   ],
   "note": "False in general: the order of siblings may differ (C47_refuted). Proved: equal forests for calls at calm places (C47_calm), equal outcomes and equal children up to order for up to 702 calls (C47_room_partial; beyond that labels run out), equal answers on equal forests."
  },
  {
   "property": "C48",
   "status": "partial",
   "theorems": [
    "C48_missing_partial",
    "C48_mp_bulk_create_partial",
    "C48_mp_refuted",
    "C48_mp_bulk_create_refuted",
    "C48_ns_refuted",
    "C48_al_refuted",
    "C48_al_no_error",
    "C48_lt_refuted"
   ],
   "note": "Missing primary keys are a KeyError in all four implementations, used ones below the first level are an error with bulk_create. Otherwise a used primary key is no error in any implementation: save() overwrites the row, which orphans its children (refuted), or makes a cycle (C48_al_refuted)."
  },
  {
   "property": "C49",
   "status": "partial",
   "theorems": [
    "C49_listed",
    "C49_flags",
    "C49_mp_list_partial",
    "C49_ns_list_partial",
    "C49_al_list",
    "C49_al_list_ties",
    "C49_lt_list_partial",
    "C49_mp_refuted",
    "C49_ns_refuted",
    "C49_lt_refuted"
   ],
   "note": "The lists are right for all four backends; has-children is right for adjacency lists only. MP and NS look at all children, ltree at all descendants of the class, so that expanders with nothing below them appear (refuted); never the other way round (C49_flags)."
  },
  {
   "property": "C50",
   "status": "partial",
   "theorems": [
    "C50_parent_partial",
    "C50_ancestors_partial",
    "C50_root_partial",
    "C50_depth_partial",
    "C50_load",
    "C50_refresh",
    "C50_add_root",
    "C50_add_child",
    "C50_add_sibling",
    "C50_move",
    "C50_refuted"
   ],
   "note": "False: update=True does not drop the cached parent objects, so parent, root and depth are outdated once an ancestor was moved by way of another instance (refuted). Proved: the answers are right if the cached parents agree with the table (current), and which instances are so after fetching, reloading, adding and moving."
  },
  {
   "property": "C51",
   "status": "partial",
   "theorems": [
    "C51_reads_partial",
    "C51_calls_partial",
    "C51_histories_partial",
    "C51_tree_partial",
    "C51_same_tree_partial",
    "C51_alphabets_partial",
    "C51_python",
    "C51_documented",
    "C51_case_refuted",
    "C51_order_refuted",
    "C51_overflow_refuted",
    "C51_edit_refuted"
   ],
   "note": "Proved for every alphabet in the order of the collation whose characters LIKE tells apart, in code point order or not, and for two alphabets of any lengths (C51_same_tree_partial), if the steps suffice. False if LIKE ignores case and the alphabet does not, which the rule in the documentation allows (C51_case_refuted: SQLite). If the alphabet is not in code point order, steps may run out without need (C51_overflow_refuted), and moving an edited node to its sorted place can fail (C51_edit_refuted); the tree is never wrong."
  },
  {
   "property": "C52",
   "status": "partial",
   "theorems": [
    "C52_seen",
    "C52_visit_partial",
    "C52_rows_partial",
    "C52_mp_partial",
    "C52_ns_partial",
    "C52_al_partial",
    "C52_lt_partial",
    "C52_lost",
    "C52_early_click_refuted",
    "C52_lost_refuted",
    "C52_zero_refuted"
   ],
   "note": "Proved for sequences in which no row is clicked while its children, or those of a node below it, are being loaded and no request fails, and for trees without primary key 0. False otherwise: children are shown below a hidden row (C52_early_click_refuted), a failed request is never repeated (C52_lost, C52_lost_refuted), collapsing a node with key 0 does not end (C52_zero_refuted)."
  },
  {
   "property": "C53",
   "status": "partial",
   "theorems": [
    "C53_mp_partial",
    "C53_ns_partial",
    "C53_al_partial",
    "C53_lt_partial",
    "C53_lt_order_partial",
    "C53_mp_target_refuted",
    "C53_mp_wrong_node_refuted",
    "C53_ns_parent_refuted",
    "C53_ns_edge_refuted",
    "C53_al_target_refuted",
    "C53_lt_orphan_refuted"
   ],
   "note": "Proved for programs that use only the objects listed by mp_after, ns_after, al_after, lt_after (children may be added to any object, except with ltree). These lists leave out some objects that the documentation promises to be refreshed: the target of add_sibling (all backends), the target of a nested set add_child that had children, and the parent object that a nested set node remembers; the refuted theorems show what happens with those."
  },
  {
   "property": "C54",
   "status": "partial",
   "theorems": [
    "C54_mp_partial",
    "C54_ns_partial",
    "C54_al_partial",
    "C54_lt_partial",
    "C54_al_own_branch_refuted",
    "C54_ns_create_refuted"
   ],
   "note": "Proved for requests that meet mp_ok, ns_ok, al_ok, lt_ok: unused primary keys, values in the columns of node_order_by, some free steps with materialized paths (and in sorted trees an alphabet in code point order, see C51_edit_refuted), change forms of MP, NS and LT trees that do not change a descending column alone (C42_sorted_edit_refuted), for new nodes of nested sets the reference nodes of C42_ns_create_partial, for change forms of adjacency lists reference nodes outside the own branch (C54_al_own_branch_refuted). Ltree siblings may be in another order."
  },
  {
   "property": "C55",
   "status": "partial",
   "theorems": [
    "C55_rolled_back",
    "C55_granted",
    "C55_flags",
    "C55_mp_partial",
    "C55_mp_done",
    "C55_ns_partial",
    "C55_ns_done",
    "C55_al_partial",
    "C55_al_done",
    "C55_al_delete",
    "C55_lt_partial",
    "C55_lt_done",
    "C55_other_database_refuted",
    "C55_delete_refuted"
   ],
   "note": "Rollback and permissions are proved for every project whose model is in the default database or that has no ATOMIC_REQUESTS there; otherwise the wrong transaction is rolled back (C55_other_database_refuted). The sequences inherit the conditions of C54. A deletion asks for the permission for the nodes below only with adjacency lists (C55_al_delete, C55_delete_refuted)."
  },
  {
   "property": "C56",
   "status": "proved",
   "theorems": [
    "C56_reading",
    "C56_label",
    "C56_safe_text",
    "C56_mp_menu",
    "C56_ns_menu",
    "C56_lt_menu",
    "C56_al_menu",
    "C56_faithful",
    "C56_spaces_refuted"
   ],
   "note": "For texts that the project has not marked as safe (those are taken as they are, C56_safe_text). The options determine the tree unless texts start with a no-break space (C56_spaces_refuted). Adjacency lists: without ties in node_order_by; the first option is -------- instead of -- root --."
  },
  {
   "property": "C57",
   "status": "partial",
   "theorems": [
    "C57_loaded",
    "C57_all_pages",
    "C57_show_all",
    "C57_show_all_refuted",
    "C57_deleted_refuted",
    "C57_inserted_refuted"
   ],
   "note": "Proved if children are only added, at the end, while the pages are loaded, and the list was not opened with the parameter all. With that parameter every child appears once per page if there are more children than list_per_page but not more than list_max_show_all (C57_show_all). Deletions and insertions meanwhile make children be missed, be shown twice or the loading fail (refuted)."
  },
  {
   "property": "C58",
   "status": "partial",
   "theorems": [
    "C58_lists_partial",
    "C58_listed",
    "C58_fix_partial",
    "C58_keeps",
    "C58_numchild_refuted",
    "C58_adopted_refuted",
    "C58_collision_refuted"
   ],
   "note": "The first four lists are exact for every table. The number of children is checked and fixed rightly if all paths have right characters and lengths; otherwise the two functions count different rows (C58_numchild_refuted). With orphans, fix_tree(fix_paths=True) can make them children of an unrelated node (C58_adopted_refuted) or fail (C58_collision_refuted); without orphans see C11."
  },
  {
   "property": "C59",
   "status": "partial",
   "theorems": [
    "C59_migrate",
    "C59_chain",
    "C59_sorted_partial",
    "C59_steplen"
   ],
   "note": "Exact if the new table has room: steps and column for materialized paths, at most 26 siblings for ltree without node_order_by. To a table with another node_order_by the result is sorted with the same parents. Missing: the order of siblings in ltree with more than 26 of them among the roots or with node_order_by, which is not always kept (C12_lt_round_trip_refuted)."
  },
  {
   "property": "C60",
   "status": "partial",
   "theorems": [
    "C60_tied",
    "C60_arranged",
    "C60_unordered",
    "C60_view",
    "C60_reached",
    "C60_rows",
    "C60_mp_list",
    "C60_mp_all",
    "C60_ns_list",
    "C60_ns_all",
    "C60_al_list",
    "C60_al_all",
    "C60_al_ties",
    "C60_lt_list",
    "C60_lt_all",
    "C60_missed_refuted",
    "C60_expander_refuted",
    "C60_drag_refuted"
   ],
   "note": "Each list is the filtered list, stably sorted by the chosen columns; opening everything shows the accepted nodes with accepted ancestors in pre-order with right levels and parents. Adjacency lists with equal values in node_order_by: up to their order (C60_al_ties). Refuted: accepted nodes below others are never shown, expanders with nothing below them, dragging in an ordered list. The search is any predicate on the values of the node; searches over related objects and pages are not combined with it (pages see C57)."
  },
  {
   "property": "C61",
   "status": "partial",
   "theorems": [
    "C61_announced",
    "C61_posts",
    "C61_abort",
    "C61_mp",
    "C61_ns",
    "C61_al",
    "C61_lt_partial",
    "C61_early_drop_refuted",
    "C61_foreign_refuted"
   ],
   "note": "Proved if a drag event has come since the pointer entered the row. Otherwise the request has the relation announced for the row before (C61_early_drop_refuted). After a drag that was given up, dropping something from outside the page on a row moves the row that was given up (C61_foreign_refuted). Ltree as in C45_lt_drag_partial."
  },
  {
   "property": "C62",
   "status": "partial",
   "theorems": [
    "C62_stay",
    "C62_stay_ends",
    "C62_stay_ancestors",
    "C62_stay_descendants",
    "C62_adding",
    "C62_adding_ancestors",
    "C62_adding_descendants",
    "C62_histories_adding",
    "C62_histories_deleting",
    "C62_missed_refuted",
    "C62_twice_refuted",
    "C62_ancestors_refuted",
    "C62_deleted_refuted"
   ],
   "note": "Proved if nobody moves a node to another parent meanwhile. With moves a node that is in the tree all the time is missed (C62_missed_refuted) or returned twice (C62_twice_refuted), and get_ancestors returns a list that was never right (C62_ancestors_refuted) or fails when an ancestor is deleted (C62_deleted_refuted). With node_order_by the adding theorems suppose that no two siblings compare equal."
  },
  {
   "property": "C63",
   "status": "partial",
   "theorems": [
    "C63_mp_partial",
    "C63_ns_partial",
    "C63_mp_moved_refuted",
    "C63_mp_update_refuted",
    "C63_mp_stays_refuted",
    "C63_mp_reused_refuted",
    "C63_ns_moved_refuted"
   ],
   "note": "Proved for careful programs. Refuted in general: an object goes on answering the old parent after a move by another object (C63_mp_moved_refuted, C63_ns_moved_refuted) or after its primary key was used again (C63_mp_reused_refuted), and update=True asks by the outdated path (C63_mp_update_refuted). For nested sets the call is at the end of the program."
  },
  {
   "property": "C64",
   "status": "partial",
   "theorems": [
    "C64_mp_same",
    "C64_ns_same",
    "C64_al_same",
    "C64_lt_same",
    "C64_ns_bounded",
    "C64_ns_reads",
    "C64_ns_dump",
    "C64_lt_bounded",
    "C64_mp_adds",
    "C64_mp_move",
    "C64_mp_problems",
    "C64_mp_reads",
    "C64_mp_refuted",
    "C64_al_adds",
    "C64_al_tree",
    "C64_al_up",
    "C64_al_branch",
    "C64_al_move",
    "C64_mp_exact",
    "C64_mp_sibling_least",
    "C64_mp_move_least",
    "C64_mp_delete",
    "C64_ns_adds_exact",
    "C64_ns_move_exact",
    "C64_ns_delete",
    "C64_lt_adds_exact",
    "C64_lt_sibling_exact",
    "C64_lt_move_exact"
   ],
   "note": "Proved for adding, moving and reading with a counter of the statements; the counted calls return what the calls of the models return (C64_*_same). A bound for all tables is refuted for materialized paths (C64_mp_refuted). Successful calls of nested sets and ltree and the simple ones of materialized paths are counted exactly, the others of materialized paths also from below (one statement for each signal). Of deletions the UPDATE and DELETE statements are counted. Not counted: transaction statements, fix_tree, load_bulk; objects come from the database without cached parents (nested sets: with and without)."
  },
  {
   "property": "C65",
   "status": "proved",
   "theorems": [
    "C65_mp",
    "C65_ns",
    "C65_al",
    "C65_lt",
    "C65_untouched"
   ],
   "note": "For the calls that have a transaction in ConcModel; adjacency lists: the parents of the new nodes are there at the beginning."
  },
  {
   "property": "C66",
   "status": "partial",
   "theorems": [
    "C66_mp_partial",
    "C66_mp_twice_refuted",
    "C66_mp_stuck_refuted",
    "C66_ns_refuted",
    "C66_ns_other_refuted",
    "C66_ns_partial",
    "C66_al",
    "C66_lt"
   ],
   "note": "Adjacency lists and ltree: proved without conditions. False in general of materialized paths (the same node deleted twice lowers the counter of the parent twice; lists can deadlock) and of nested sets in one tree (numbers out of date)."
  },
  {
   "property": "C67",
   "status": "proved",
   "theorems": [
    "C67_mp",
    "C67_ns",
    "C67_lt"
   ],
   "note": "Adjacency lists are not in this property: their add_child calls are in C41, their deletions in C66."
  },
  {
   "property": "C68",
   "status": "partial",
   "theorems": [
    "C68_serial",
    "C68_trees_partial",
    "C68_one_tree_refuted",
    "C68_roots_refuted"
   ],
   "note": "False for two moves in one tree (C68_one_tree_refuted: both commit and the intervals are broken) and for calls that make a root, which renumber other trees (C68_roots_refuted)."
  },
  {
   "property": "C69",
   "status": "partial",
   "theorems": [
    "C69_methods",
    "C69_no_arguments",
    "C69_handler",
    "C69_twice",
    "C69_twice_refuted"
   ],
   "note": "False for a second process(): the handler has taken the instance out of its dictionary, which may be that of the caller, and adds an object with default values (C69_twice)."
  },
  {
   "property": "C70",
   "status": "partial",
   "theorems": [
    "C70_fields",
    "C70_no_tree_fields",
    "C70_argument",
    "C70_list_refuted"
   ],
   "note": "False for a list given as exclude: it is changed in place (C70_list_refuted); later forms made with it have the same fields (C70_argument)."
  },
  {
   "property": "C71",
   "status": "partial",
   "theorems": [
    "C71_set_get",
    "C71_load",
    "C71_deferred_save",
    "C71_deferred_refuted"
   ],
   "note": "False for a deferred path: reading it raises KeyError (C71_deferred_refuted)."
  },
  {
   "property": "C72",
   "status": "partial",
   "theorems": [
    "C72_serial",
    "C72_trees_partial",
    "C72_forest_partial",
    "C72_one_tree_refuted",
    "C72_roots_refuted"
   ],
   "note": "False for two moves in one tree (C72_one_tree_refuted: both commit, one is lost and a count is wrong) and for calls that make a root, which rewrite the paths of other trees (C72_roots_refuted: a node that no call names becomes an orphan). C72_forest_partial needs roomy tables for the moves, as C05."
  },
  {
   "property": "C73",
   "status": "partial",
   "theorems": [
    "C73_serial",
    "C73_trees_partial",
    "C73_one_tree_refuted",
    "C73_roots_refuted"
   ],
   "note": "False for two calls in one tree (C73_one_tree_refuted: both commit, and the node that add_child made has no parent) and for calls that make a root, which rename the roots of other trees (C73_roots_refuted: a moved node and its child lose their parents). The forest is up to the order of siblings, as in C30."
  },
  {
   "property": "C74",
   "status": "partial",
   "theorems": [
    "C74_serial",
    "C74_trees_partial",
    "C74_sorted_trees",
    "C74_one_tree_refuted",
    "C74_roots_refuted"
   ],
   "note": "False for two calls in one tree (C74_one_tree_refuted: two moves make a cycle) and, without node_order_by, for calls that make roots (C74_roots_refuted: two new roots get the same sib_order). With node_order_by all calls in different trees are covered."
  },
  {
   "property": "C75",
   "status": "partial",
   "theorems": [
    "C75_class_partial",
    "C75_all_nodes",
    "C75_al_parent_partial",
    "C75_proxy_refuted",
    "C75_al_inherited_refuted",
    "C75_al_proxy_refuted"
   ],
   "note": "False for proxies of proxies (C75_proxy_refuted, C75_al_proxy_refuted) and, with adjacency lists, for proxies of inherited models, where get_parent raises DoesNotExist (C75_al_inherited_refuted)."
  },
  {
   "property": "C76",
   "status": "partial",
   "theorems": [
    "C76_mp_partial",
    "C76_ns_partial",
    "C76_lt_partial",
    "C76_al",
    "C76_check",
    "C76_first",
    "C76_inherits",
    "C76_named",
    "C76_check_refuted"
   ],
   "note": "False as stated (C76_check_refuted): the check looks at the default manager, delete uses the one called objects. True when no class replaces objects by a manager that is not one of the tree."
  },
  {
   "property": "C77",
   "status": "partial",
   "theorems": [
    "C77_moved",
    "C77_all",
    "C77_apart",
    "C77_implemented",
    "C77_refuted"
   ],
   "note": "The names that a manager does not have (fix_tree, find_problems on some kinds of tree) raise AttributeError (C77_refuted)."
  },
  {
   "property": "C78",
   "status": "partial",
   "theorems": [
    "C78_partial",
    "C78_none",
    "C78_refuted"
   ],
   "note": "False for models that are called like a class of Treebeard (C78_refuted): classes are found by name."
  },
  {
   "property": "C79",
   "status": "proved",
   "theorems": [
    "C79_text",
    "C79_right",
    "C79_right_stored",
    "C79_move",
    "C79_two_statements",
    "C79_negative"
   ],
   "note": ""
  },
  {
   "property": "C80",
   "status": "partial",
   "theorems": [
    "C80_branch",
    "C80_stored",
    "C80_rewrite",
    "C80_fix_depth",
    "C80_fix_numchild",
    "C80_fix_numchild_mysql",
    "C80_count",
    "C80_ns_gap",
    "C80_ns_jump",
    "C80_other_order",
    "C80_any_order",
    "C80_depth_refuted",
    "C80_count_refuted"
   ],
   "note": "With the decimal division the repairs are the same only if all paths are whole numbers of steps; otherwise fix_tree and find_problems differ between databases (C80_depth_refuted, C80_count_refuted)."
  },
  {
   "property": "C81",
   "status": "partial",
   "theorems": [
    "C81_partial",
    "C81_one_root_partial",
    "C81_again_partial",
    "C81_lt_partial",
    "C81_lt_one_root_partial",
    "C81_lt_again_partial",
    "C81_al_partial",
    "C81_al_sorted",
    "C81_ns_one_root_partial"
   ],
   "note": "Materialized paths and ltree without node_order_by, adjacency lists with and without; on adjacency lists without node_order_by up to the numbers in sib_order, which can be equal (C74_roots_refuted); nested sets with one add_root and one parent per tree, false with two add_root calls (C41_ns_add_root_refuted). On ltree up to the order of siblings, as in C30; new rows get primary keys of their own; READ COMMITTED as in ConcModel. With node_order_by see C41_mp_sorted_refuted."
  },
  {
   "property": "C82",
   "status": "partial",
   "theorems": [
    "C82_fast",
    "C82_unchanged",
    "C82_again_partial",
    "C82_branch_unchanged",
    "C82_branch_again_partial"
   ],
   "note": "With node_order_by and fix_paths only if no two siblings are equal in it: SQL does not say in which order equal rows come. For fix_paths with a parent the table has to store a tree."
  },
  {
   "property": "C83",
   "status": "partial",
   "theorems": [
    "C83_ns_add_delete",
    "C83_ns_move_back",
    "C83_ns_sorted_back",
    "C83_ns_sorted_refuted",
    "C83_ns_stay",
    "C83_al_add_delete",
    "C83_al_move_back",
    "C83_al_sorted_back",
    "C83_al_stay",
    "C83_mp_add_delete",
    "C83_mp_move_back_partial",
    "C83_mp_sorted_back_partial",
    "C83_mp_stay_partial",
    "C83_lt_add_delete_partial",
    "C83_lt_move_back_partial",
    "C83_lt_sorted_back_partial",
    "C83_lt_stay_partial",
    "C83_lt_refuted"
   ],
   "note": "Nested sets and adjacency lists: proved. Materialized paths: moves with room for the temporary paths, as C05, or PathOverflow. Ltree: the parents are as before, the order of siblings not always (C83_lt_refuted), and labels may run out. Moves with node_order_by: of nodes strictly before their right siblings (C83_*_sorted_back); behind an equal sibling otherwise (C83_ns_sorted_refuted). The stay theorems are for trees without node_order_by."
  }
 ]
}