{"id": "C01", "title": "Number/string conversion round-trips", "statement": "For every alphabet without duplicate characters and of at least two characters and every non-negative integer n, converting n to a string and back gives n; the string is non-empty, uses only alphabet characters and has no superfluous leading zero digit; converting a canonical string to a number and back gives the string. Negative numbers, duplicated alphabets and foreign characters are rejected with ValueError.", "quantifier": "all alphabets, all integers, all strings", "why_tests_cant": "The domain is infinite; tests sample a few numbers and one alphabet.", "anchors": ["treebeard/numconv.py:NumConv.int2str", "treebeard/numconv.py:NumConv.str2int", "treebeard/numconv.py:NumConv.__init__"]}
{"id": "C02", "title": "Fixed-width path steps are injective and order preserving", "statement": "For every alphabet size, step length and pair of step numbers that fit, the padded encodings have exactly the step length, are equal only for equal numbers and compare (in alphabet order) exactly as the numbers do; for an alphabet listed in collation order the string order of whole paths is the alphabet-index order used by the model.", "quantifier": "all alphabets in collation order, all step lengths, all step numbers below the limit", "why_tests_cant": "ORDER BY path is only correct if this holds for each of the up to radix^steplen values at each depth.", "anchors": ["treebeard/mp_tree.py:MP_Node._get_path", "treebeard/mp_tree.py:MP_Node._inc_path", "treebeard/mp_tree.py:MP_Node._int2str", "treebeard/mp_tree.py:MP_Node._str2int"]}
{"id": "C03", "title": "Materialized path tables stay consistent under every history", "statement": "Starting from an empty table and after any finite sequence of add_root, add_child, add_sibling, move and delete calls (failed calls included), the stored rows describe an ordered forest: paths are unique, every non-root has its parent, depth equals the level and numchild equals the number of children.", "quantifier": "all finite histories of API calls with freshly fetched nodes, all alphabets/step lengths, all field values", "why_tests_cant": "Unit tests replay a few dozen hand written histories on one tree.", "anchors": ["treebeard/mp_tree.py:MP_NodeManager", "treebeard/mp_tree.py:MP_NodeQuerySet.delete"]}
{"id": "C04", "title": "Materialized path: a new node lands exactly where documented and nothing else moves", "statement": "A successful add_root appends a last root, add_child a last child, and add_sibling inserts first/left/right/last relative to the target; the new node is a leaf and the structure and order of all other nodes is unchanged.", "quantifier": "all consistent tables (with or without holes), all targets, all positions", "why_tests_cant": "Requires every tree shape and every pattern of holes in the step numbers.", "anchors": ["treebeard/mp_tree.py:MP_NodeManager.add_root", "treebeard/mp_tree.py:MP_NodeManager.add_child", "treebeard/mp_tree.py:MP_NodeManager.add_sibling", "treebeard/mp_tree.py:MP_NodeManager._reorder_nodes_before_add_or_move"]}
{"id": "C05", "title": "Materialized path: move relocates exactly the requested subtree", "statement": "A successful move detaches the node with its whole subtree and reinserts it at the requested position relative to the target; the inner structure of the subtree and the relative order of all other nodes is unchanged.", "quantifier": "all consistent tables, all node/target pairs that are not ancestor/descendant, all positions", "why_tests_cant": "The code shifts siblings, dumps the branch at a temporary path and rewrites prefixes; correctness depends on hole patterns, relative positions and nesting that tests cannot enumerate.", "anchors": ["treebeard/mp_tree.py:MP_NodeManager.move", "treebeard/mp_tree.py:MP_NodeManager.update_move_to_child_vars", "treebeard/mp_tree.py:MP_NodeManager._reorder_nodes_before_add_or_move", "treebeard/mp_tree.py:MP_NodeManager._set_newpath_in_branches", "treebeard/mp_tree.py:MP_NodeManager.update_parent_counts_after_move"]}
{"id": "C06", "title": "Materialized path: delete removes exactly the selected nodes and their descendants", "statement": "Deleting any queryset removes precisely the selected nodes and all their descendants, keeps everything else in place and keeps every numchild right, even when the queryset contains nested nodes.", "quantifier": "all consistent tables, all sets of selected nodes", "why_tests_cant": "All subsets of all trees.", "anchors": ["treebeard/mp_tree.py:MP_NodeQuerySet.delete", "treebeard/models.py:Node.delete"]}
{"id": "C07", "title": "Materialized path: the read API agrees with the forest", "statement": "On a consistent table get_root_nodes, get_children, get_siblings, get_descendants, get_ancestors, get_parent, get_root, get_tree, first/last/previous/next sibling and child, counts and the is_* predicates return exactly the nodes of the forest, in depth-first/sibling order.", "quantifier": "all consistent tables, all nodes", "why_tests_cant": "Range and prefix queries can go wrong for particular step values only.", "anchors": ["treebeard/mp_tree.py:MP_NodeManager.get_children", "treebeard/mp_tree.py:MP_NodeManager.get_siblings", "treebeard/mp_tree.py:MP_NodeManager.get_tree", "treebeard/mp_tree.py:MP_NodeManager.get_descendants", "treebeard/mp_tree.py:MP_NodeManager.get_ancestors", "treebeard/mp_tree.py:MP_NodeManager.get_parent", "treebeard/mp_tree.py:MP_NodeManager.get_next_sibling", "treebeard/mp_tree.py:MP_Node.is_descendant_of"]}
{"id": "C08", "title": "Materialized path: exhaustion of step numbers is reported, never silent", "statement": "When a sibling list has no room an add or move raises PathOverflow (or another error) and leaves the table untouched; no successful call ever stores two nodes under one path or a path of the wrong width.", "quantifier": "all consistent tables including completely full sibling lists, all positions", "why_tests_cant": "Limits are at radix^steplen siblings (1.6 million by default); tests use one tiny configuration.", "anchors": ["treebeard/mp_tree.py:MP_Node._inc_path", "treebeard/mp_tree.py:MP_Node._get_path", "treebeard/mp_tree.py:MP_NodeManager._reorder_nodes_before_add_or_move"]}
{"id": "C09", "title": "Materialized path: find_problems is exact", "statement": "On any table contents find_problems reports nothing exactly when the table describes a forest with right paths, depths and child counts.", "quantifier": "all table contents, including arbitrarily corrupted ones", "why_tests_cant": "Every possible corruption.", "anchors": ["treebeard/mp_tree.py:MP_NodeManager.find_problems"]}
{"id": "C10", "title": "Materialized path: fix_tree repairs depth and numchild", "statement": "For any table whose paths describe a forest, whatever the depth and numchild columns contain, fix_tree() makes the table consistent, changes no path, and is idempotent; with parent given only that branch is touched.", "quantifier": "all tables with intact paths and arbitrary depth/numchild values", "why_tests_cant": "Every corruption pattern.", "anchors": ["treebeard/mp_tree.py:MP_NodeManager.fix_tree", "treebeard/mp_tree.py:MP_NodeManager._fix_numchild"]}
{"id": "C11", "title": "Materialized path: fix_tree(fix_paths=True) removes holes and restores sort order", "statement": "After fix_tree(fix_paths=True) the children of every node have consecutive step numbers starting from 1 in the order given by node_order_by (or their previous order), and no node changes its parent.", "quantifier": "all tables whose paths describe a forest, all node_order_by", "why_tests_cant": "The swap through max_position+1 has to work for every permutation of positions.", "anchors": ["treebeard/mp_tree.py:MP_NodeManager.fix_tree", "treebeard/mp_tree.py:MP_NodeManager._rewrite_node_path"]}
{"id": "C12", "title": "Materialized path: dump_bulk / load_bulk round-trip", "statement": "dump_bulk yields the forest (or branch) with all data and ids; loading such a dump into an empty unsorted table with keep_ids recreates the same forest; loading below a parent appends the dumped forest after the existing children.", "quantifier": "all forests, all data", "why_tests_cant": "All shapes and sizes of trees.", "anchors": ["treebeard/mp_tree.py:MP_NodeManager.dump_bulk", "treebeard/models.py:NodeManager.load_bulk", "treebeard/utils.py:prepare_dumpdata_for_loading"]}
{"id": "C13", "title": "Materialized path: load_bulk(bulk_create=True) gives the same tree as load_bulk", "statement": "For every dump and every table the bulk_create variant yields a consistent table with the same forest as the plain variant.", "quantifier": "all dumps, all existing trees, sorted and unsorted models", "why_tests_cant": "Depends on the interaction of the data order, existing siblings and sibling counts.", "anchors": ["treebeard/mp_tree.py:MP_NodeManager.load_bulk"]}
{"id": "C14", "title": "Materialized path: path_updated signals suffice to mirror all path changes", "statement": "A listener that applies each path_updated signal of a move, add_sibling or fix_tree (replace prefix old_path by new_path) to its copy of the paths ends with exactly the stored paths.", "quantifier": "all consistent tables and all operations", "why_tests_cant": "Order and content of the signals must be right in every case.", "anchors": ["treebeard/mp_tree.py:MP_NodeManager._set_newpath_in_branches", "treebeard/mp_tree.py:MP_NodeManager._rewrite_node_path", "treebeard/mp_tree.py:path_updated"]}
{"id": "C15", "title": "Sorted trees stay sorted", "statement": "With node_order_by set and values present, every add and sorted move puts the node after all siblings not greater than it and before all greater ones, so sibling lists stay sorted under every history, in every tree implementation.", "quantifier": "all histories, all values including ties, all node_order_by", "why_tests_cant": "All value sequences.", "anchors": ["treebeard/models.py:NodeManager.get_sorted_pos_queryset", "treebeard/mp_tree.py:MP_NodeManager.add_sibling", "treebeard/ns_tree.py:NS_NodeManager.add_sibling", "treebeard/ltree/__init__.py:LT_NodeManager.add_sibling"]}
{"id": "C16", "title": "Nested sets tables stay consistent under every history", "statement": "Starting from an empty table, after any finite sequence of add, move and delete calls with freshly fetched nodes, the lft/rgt/tree_id/depth values are the nested-set numbering of an ordered forest.", "quantifier": "all finite histories", "why_tests_cant": "All histories.", "anchors": ["treebeard/ns_tree.py:NS_NodeManager", "treebeard/ns_tree.py:NS_NodeQuerySet.delete"]}
{"id": "C17", "title": "Nested sets: a new node lands exactly where documented and nothing else moves", "statement": "Same statement as for materialized paths, for the nested sets implementation.", "quantifier": "all consistent tables, targets and positions", "why_tests_cant": "All tree shapes.", "anchors": ["treebeard/ns_tree.py:NS_NodeManager.add_root", "treebeard/ns_tree.py:NS_NodeManager.add_child", "treebeard/ns_tree.py:NS_NodeManager.add_sibling", "treebeard/ns_tree.py:NS_NodeManager._alter_gap", "treebeard/ns_tree.py:NS_NodeManager._move_tree_right"]}
{"id": "C18", "title": "Nested sets: move relocates exactly the requested subtree", "statement": "Same statement as for materialized paths, for the nested sets implementation, including moves between trees, to and from root level and within one tree.", "quantifier": "all consistent tables, node/target pairs and positions", "why_tests_cant": "Opening a gap, moving and closing the gap overlap in ways that depend on the relative position of source and destination.", "anchors": ["treebeard/ns_tree.py:NS_NodeManager.move", "treebeard/ns_tree.py:NS_NodeManager._alter_gap", "treebeard/ns_tree.py:NS_NodeManager._close_gap"]}
{"id": "C19", "title": "Nested sets: delete removes exactly the selected nodes and their descendants", "statement": "Deleting any queryset removes precisely the selected nodes and their descendants and closes all gaps.", "quantifier": "all consistent tables, all sets of selected nodes", "why_tests_cant": "All subsets of all trees.", "anchors": ["treebeard/ns_tree.py:NS_NodeQuerySet.delete", "treebeard/ns_tree.py:NS_NodeManager._close_gap"]}
{"id": "C20", "title": "Nested sets: the read API agrees with the forest", "statement": "On a consistent table the queries and predicates return exactly the nodes of the forest in depth-first/sibling order, and get_descendant_count is the number of descendants.", "quantifier": "all consistent tables, all nodes", "why_tests_cant": "All shapes.", "anchors": ["treebeard/ns_tree.py:NS_NodeManager.get_tree", "treebeard/ns_tree.py:NS_NodeManager.get_children", "treebeard/ns_tree.py:NS_NodeManager.get_siblings", "treebeard/ns_tree.py:NS_NodeManager.get_ancestors", "treebeard/ns_tree.py:NS_NodeManager.get_parent", "treebeard/ns_tree.py:NS_NodeManager.get_descendant_count"]}
{"id": "C21", "title": "Nested sets: find_problems never cries wolf and finds every nesting error", "statement": "On a consistent table find_problems reports nothing; and if it reports nothing on any table, then within each tree_id intervals are properly nested under one root and every depth equals the nesting level.", "quantifier": "all table contents", "why_tests_cant": "All corruptions.", "anchors": ["treebeard/ns_tree.py:NS_NodeManager.find_problems"]}
{"id": "C22", "title": "Nested sets: dump_bulk / load_bulk round-trip", "statement": "As for materialized paths.", "quantifier": "all forests", "why_tests_cant": "All shapes.", "anchors": ["treebeard/ns_tree.py:NS_NodeManager.dump_bulk", "treebeard/models.py:NodeManager.load_bulk"]}
{"id": "C23", "title": "Nested sets: signals suffice to mirror all changes", "statement": "A listener applying gap_altered, tree_ids_incremented and subtree_moved as documented to its copy of (tree_id, lft, rgt, depth) ends with exactly the stored values, for every add_sibling, add_child and move.", "quantifier": "all consistent tables and operations", "why_tests_cant": "Order and arguments must be right in every case.", "anchors": ["treebeard/ns_tree.py:gap_altered", "treebeard/ns_tree.py:tree_ids_incremented", "treebeard/ns_tree.py:subtree_moved"]}
{"id": "C24", "title": "The caller's node objects are in sync with the database after add and move", "statement": "After add_child the passed parent object, and after move the passed node and target objects, have the field values stored in the database, so they can be reused in the next call (documented in caveats).", "quantifier": "all trees, all sequences of calls reusing the same objects", "why_tests_cant": "Staleness only shows in particular sequences of calls.", "anchors": ["treebeard/ns_tree.py:NS_NodeManager.add_child", "treebeard/mp_tree.py:MP_NodeManager.add_child", "treebeard/mp_tree.py:MP_NodeManager.move", "docs/source/caveats.rst"]}
{"id": "C25", "title": "Adjacency list: add operations land where documented; tables stay consistent", "statement": "add_root/add_child/add_sibling insert at the documented position; sib_order stays strictly increasing per parent; all other nodes keep structure and order.", "quantifier": "all consistent tables, targets, positions, histories", "why_tests_cant": "All shapes and histories.", "anchors": ["treebeard/al_tree.py:AL_NodeManager.add_root", "treebeard/al_tree.py:AL_NodeManager.add_child", "treebeard/al_tree.py:AL_NodeManager.add_sibling", "treebeard/al_tree.py:AL_NodeManager._make_hole_and_get_sibling_order"]}
{"id": "C26", "title": "Adjacency list: move relocates exactly the requested subtree", "statement": "As for materialized paths.", "quantifier": "all consistent tables, node/target pairs, positions", "why_tests_cant": "All shapes.", "anchors": ["treebeard/al_tree.py:AL_NodeManager.move", "treebeard/al_tree.py:AL_NodeManager._get_new_sibling_order"]}
{"id": "C27", "title": "Adjacency list: the read API agrees with the forest", "statement": "get_tree, get_descendants (depth-first), get_ancestors, get_root, get_children, siblings, get_depth and counts agree with the forest.", "quantifier": "all consistent tables, all nodes", "why_tests_cant": "All shapes.", "anchors": ["treebeard/al_tree.py:AL_NodeManager.get_tree", "treebeard/al_tree.py:AL_NodeManager._get_tree_recursively", "treebeard/al_tree.py:AL_NodeManager.get_ancestors", "treebeard/al_tree.py:AL_Node.get_depth"]}
{"id": "C28", "title": "Adjacency list: get_depth is right after a move", "statement": "After move the depth reported for the moved node object is its level in the tree.", "quantifier": "all moves", "why_tests_cant": "Depends on what was cached before.", "anchors": ["treebeard/al_tree.py:AL_Node.get_depth", "treebeard/al_tree.py:AL_NodeManager.move"]}
{"id": "C29", "title": "Ltree: generated labels satisfy their constraints", "statement": "generate_label returns a label over 0-9A-Z strictly between after and before that is not in skip, or raises InvalidLabelConstraints exactly when there is no room by its rule; for adjacent neighbours it never falls through to the final ValueError.", "quantifier": "all labels before/after, all skip sets", "why_tests_cant": "Infinite string domain, enumeration order dependent.", "anchors": ["treebeard/ltree/__init__.py:generate_label", "treebeard/ltree/__init__.py:generate_path"]}
{"id": "C30", "title": "Ltree: a new node lands exactly where documented and nothing else moves", "statement": "add_root appends a last root, add_child a last child, add_sibling inserts at the given position; order of all other nodes is unchanged.", "quantifier": "all consistent tables, targets, positions", "why_tests_cant": "Only specific label patterns break it (prefix labels, holes, more than 26 siblings).", "anchors": ["treebeard/ltree/__init__.py:LT_NodeManager.add_root", "treebeard/ltree/__init__.py:LT_NodeManager.add_child", "treebeard/ltree/__init__.py:LT_NodeManager.add_sibling", "treebeard/ltree/__init__.py:LT_NodeManager._get_new_path", "treebeard/ltree/__init__.py:LT_NodeManager._move_subtree_right"]}
{"id": "C31", "title": "Ltree: move relocates exactly the requested subtree", "statement": "As for materialized paths.", "quantifier": "all consistent tables, node/target pairs, positions", "why_tests_cant": "As above.", "anchors": ["treebeard/ltree/__init__.py:LT_NodeManager.move", "treebeard/ltree/__init__.py:LT_NodeManager._get_new_path"]}
{"id": "C32", "title": "Ltree: reads and delete agree with the forest", "statement": "Queries return the forest's nodes in depth-first order; delete removes exactly the selected nodes and their descendants.", "quantifier": "all consistent tables, nodes, selections", "why_tests_cant": "All shapes.", "anchors": ["treebeard/ltree/__init__.py:LT_NodeManager.get_tree", "treebeard/ltree/__init__.py:LT_NodeManager.get_children", "treebeard/ltree/__init__.py:LT_NodeManager.get_siblings", "treebeard/ltree/__init__.py:LT_NodeQuerySet.delete"]}
{"id": "C33", "title": "Ltree: path values survive the text representation", "statement": "Converting a path value to text and back is the identity for every path of non-empty labels without dots and blanks, and every generated path is accepted by the field validator.", "quantifier": "all label lists", "why_tests_cant": "Infinite domain.", "anchors": ["treebeard/ltree/fields.py:PathValue", "treebeard/ltree/fields.py:path_label_validator"]}
{"id": "C34", "title": "Positions are validated as documented", "statement": "For every string pos and both kinds of models add_sibling and move accept exactly the documented positions, use the documented default, and otherwise raise InvalidPosition or MissingNodeOrderBy without touching the table.", "quantifier": "all strings, sorted and unsorted models", "why_tests_cant": "All strings.", "anchors": ["treebeard/models.py:NodeManager._prepare_pos_var", "treebeard/models.py:NodeManager._prepare_pos_var_for_add_sibling", "treebeard/models.py:NodeManager._prepare_pos_var_for_move"]}
{"id": "C35", "title": "Sorted position filter is the strict lexicographic order", "statement": "For non-null values the filter selects exactly the siblings that come strictly after the new object in the order given by node_order_by (with '-' reversed); null values of the new object are ignored.", "quantifier": "all field lists, directions and values", "why_tests_cant": "All combinations.", "anchors": ["treebeard/models.py:NodeManager.get_sorted_pos_queryset"]}
{"id": "C36", "title": "Annotated lists render to the right nested list", "statement": "Feeding get_annotated_list to the documented template yields exactly the nested list markup of the branch (balanced, properly nested), and level is the depth relative to the first node.", "quantifier": "all branches of all forests", "why_tests_cant": "All shapes.", "anchors": ["treebeard/models.py:NodeManager.get_annotated_list_qs", "treebeard/models.py:NodeManager.get_annotated_list", "docs/source/api.rst"]}
{"id": "C37", "title": "max_depth limits get_tree and get_descendants relative to the node", "statement": "With max_depth=d the result is exactly the nodes at most d levels below the given node (or root level), for every d that is set.", "quantifier": "all trees, nodes, depths including 0", "why_tests_cant": "All depths.", "anchors": ["treebeard/mp_tree.py:MP_NodeManager.get_tree", "treebeard/ns_tree.py:NS_NodeManager.get_tree", "treebeard/ltree/__init__.py:LT_NodeManager.get_tree", "treebeard/al_tree.py:AL_NodeManager.get_tree"]}
{"id": "C38", "title": "A node can never be moved into its own subtree", "statement": "Every move whose target is the node itself (as a child) or one of its descendants raises InvalidMoveToDescendant and changes nothing, and no other pair is rejected that way.", "quantifier": "all trees, all pairs, all positions, all implementations", "why_tests_cant": "All pairs.", "anchors": ["treebeard/mp_tree.py:MP_NodeManager.move", "treebeard/ns_tree.py:NS_NodeManager.move", "treebeard/al_tree.py:AL_NodeManager.move", "treebeard/ltree/__init__.py:LT_NodeManager.move"]}
{"id": "C39", "title": "Implementations are interchangeable", "statement": "The same history of successful calls leads to the same ordered forest in the materialized path, nested sets and adjacency list implementations.", "quantifier": "all histories", "why_tests_cant": "All histories.", "anchors": ["treebeard/mp_tree.py", "treebeard/ns_tree.py", "treebeard/al_tree.py"]}
{"id": "C40", "title": "A crash never leaves a half-done change", "statement": "If the process dies between any two SQL statements of an API call, the stored tree is either the one before or the one after the call.", "quantifier": "all operations, all crash points", "why_tests_cant": "Crash points cannot be enumerated by tests.", "anchors": ["treebeard/mp_tree.py:MP_NodeQuerySet.delete", "treebeard/ns_tree.py:NS_NodeQuerySet.delete", "treebeard/mp_tree.py:MP_NodeManager.move"]}
{"id": "C41", "title": "Concurrent add_child calls do not corrupt the tree", "statement": "Any interleaving of any number of concurrent add_child transactions gives the result of some serial order.", "quantifier": "all schedules, any number of transactions, any parents", "why_tests_cant": "Schedules.", "anchors": ["treebeard/mp_tree.py:MP_NodeManager.add_child", "treebeard/ns_tree.py:NS_NodeManager.add_child", "treebeard/mp_tree.py:MP_NodeManager.add_root", "treebeard/ns_tree.py:NS_NodeManager.add_root"]}
{"id": "C42", "title": "The move form's initial values describe the node's current place", "statement": "Submitting the initial position and reference node of MoveNodeForm for an unsorted tree leaves the tree unchanged; creating a node through the form puts it at the chosen place.", "quantifier": "all trees, all nodes", "why_tests_cant": "All shapes.", "anchors": ["treebeard/forms.py:MoveNodeForm._get_initial", "treebeard/forms.py:MoveNodeForm.save", "treebeard/forms.py:MoveNodeForm._set_ref_model_queryset"]}
{"id": "C43", "title": "Exactly one of create_kwargs and an unsaved instance is accepted", "statement": "add_root/add_child/add_sibling accept exactly: an unsaved instance with no (or empty) create_kwargs, or create_kwargs without instance; everything else raises ValueError or NodeAlreadySaved before touching the table.", "quantifier": "all argument combinations", "why_tests_cant": "Small but complete decision table.", "anchors": ["treebeard/utils.py:check_create_args"]}
{"id": "C44", "title": "Descendant group counts are right", "statement": "get_descendants_group_count returns every root (or child of the parent) in order with its number of descendants.", "quantifier": "all trees", "why_tests_cant": "All shapes.", "anchors": ["treebeard/mp_tree.py:MP_NodeManager.get_descendants_group_count", "treebeard/models.py:NodeManager.get_descendants_group_count", "treebeard/ltree/__init__.py:LT_NodeManager.get_descendants_group_count"]}
{"id": "C45", "title": "Admin tree view shows the right nodes and expanders", "statement": "The admin list of a parent shows exactly its children (roots for none) and has-children is set exactly for non-leaves; dragging maps to the documented positions.", "quantifier": "all trees, all nodes", "why_tests_cant": "All shapes.", "anchors": ["treebeard/templatetags/admin_tree.py:_get_annotated_context_queryset", "treebeard/admin.py:TreeAdmin.get_queryset", "treebeard/admin.py:TreeAdmin.move_node"]}
{"id": "C46", "title": "Ltree signals describe every change of paths", "statement": "A listener that keeps a copy of primary keys and paths and applies subtree_moved_right, subtree_moved and nodes_deleted as documented, and post_save, has the paths of the table after every add, move and delete.", "quantifier": "all trees, positions and selections of nodes", "why_tests_cant": "Depends on which labels have to be moved to the right.", "anchors": ["treebeard/ltree/__init__.py:LT_NodeManager._move_subtree_right", "treebeard/ltree/__init__.py:LT_NodeManager.move", "treebeard/ltree/__init__.py:LT_NodeQuerySet.delete", "docs/source/ltree.rst"]}
{"id": "C47", "title": "The ltree implementation is interchangeable with nested sets", "statement": "The same history of calls succeeds on ltree tables and on nested sets and leads to the same ordered forest, and tables with the same forest answer reads alike.", "quantifier": "all histories", "why_tests_cant": "All histories; depends on the labels.", "anchors": ["treebeard/ltree/__init__.py", "treebeard/ns_tree.py"]}
{"id": "C48", "title": "load_bulk with keep_ids refuses missing and used primary keys", "statement": "load_bulk(keep_ids=True) raises if an item has no primary key or if the primary key of an item belongs to a row of the table already.", "quantifier": "every table, every dump with a missing or used primary key, every parent, for materialized paths with and without bulk_create", "why_tests_cant": "Tests load dumps into empty tables; the failure needs a dump that overlaps with the table, at every place of the dump.", "anchors": ["treebeard/models.py:NodeManager.load_bulk", "treebeard/mp_tree.py:MP_NodeManager.load_bulk", "treebeard/utils.py:prepare_dumpdata_for_loading"]}
{"id": "C49", "title": "Admin lists of inherited models", "statement": "For a model that inherits from a concrete tree model the admin lists, in order, the children (roots) that have an instance of the model, and has-children is set exactly if the list below the node is not empty.", "quantifier": "all trees, all sets of nodes with an instance of the inherited model, all parents", "why_tests_cant": "Needs every way to mix classes along a branch.", "anchors": ["treebeard/admin.py:TreeAdmin.get_queryset", "treebeard/templatetags/admin_tree.py:_get_annotated_context_queryset"]}
{"id": "C50", "title": "Adjacency list ancestors with update=True", "statement": "For adjacency lists get_parent(update=True) and get_depth(update=True) of an instance that agrees with its row answer from the database, whatever other instances were read and moved before.", "quantifier": "all trees, all sequences of reads and moves on several instances", "why_tests_cant": "The answer depends on objects cached by Django on other instances.", "anchors": ["treebeard/al_tree.py:AL_NodeManager.get_parent", "treebeard/al_tree.py:AL_NodeManager.get_ancestors", "treebeard/al_tree.py:AL_Node.get_depth", "treebeard/models.py:Node.get_parent"]}
{"id": "C51", "title": "Materialized paths over any alphabet", "statement": "With an alphabet in the order of the database collation, the calls and queries of materialized path trees give the same tree as with any other such alphabet.", "quantifier": "all alphabets and collations, all sequences of calls", "why_tests_cant": "Paths are strings compared by the database and by Python; the order of the alphabet decides everything.", "anchors": ["treebeard/mp_tree.py:MP_Node.alphabet", "treebeard/mp_tree.py:MP_Node._get_path", "treebeard/mp_tree.py:MP_Node._inc_path", "treebeard/mp_tree.py:MP_Node._get_children_path_interval", "docs/source/mp_tree.rst"]}
{"id": "C52", "title": "Browsing the tree in the admin list", "statement": "The rows shown in the admin list are, in tree order, the nodes whose ancestors are all expanded; below an expanded row one sees exactly its children, with the right level and link.", "quantifier": "all trees, all sequences of clicks, drags over rows and answers of the server", "why_tests_cant": "The list loads branches on demand; a row in the wrong place would be dragged or edited by mistake.", "anchors": ["treebeard/static/treebeard/treebeard-admin.js:Node", "treebeard/static/treebeard/treebeard-admin.js:setupData", "treebeard/admin.py:TreeAdmin.children_view", "treebeard/templatetags/admin_tree.py:tree_context"]}
{"id": "C53", "title": "Programs that keep node objects", "statement": "After an add or a move the new or moved object and its target are up to date, so a program that only uses such objects, or objects fetched since, always gets the documented trees and exceptions.", "quantifier": "all trees, all programs of fetches, additions, moves and deletions through objects kept in variables", "why_tests_cant": "docs/source/caveats.rst promises that these objects are refreshed; using an outdated object moves the wrong node or breaks the tree.", "anchors": ["docs/source/caveats.rst", "treebeard/mp_tree.py:MP_Node.add_sibling", "treebeard/mp_tree.py:MP_Node.add_child", "treebeard/ns_tree.py:NS_Node.add_child", "treebeard/ns_tree.py:NS_Node.add_sibling", "treebeard/al_tree.py:AL_Node.add_sibling", "treebeard/ltree/__init__.py:LT_Node.add_child"]}
{"id": "C54", "title": "Life of a site", "statement": "Any sequence of API calls, nodes dragged in the admin, change forms, forms for new nodes, bulk loads and repairs leaves a sound tree, and each request did what is documented, was declined for a documented reason, or changed nothing.", "quantifier": "all trees, all sequences of requests of the six kinds, in any order", "why_tests_cant": "The parts of the library are used together on the same table; each must leave what the others rely on.", "anchors": ["treebeard/admin.py:TreeAdmin.move_node", "treebeard/forms.py:MoveNodeForm.save", "treebeard/forms.py:MoveNodeForm._set_ref_model_queryset", "treebeard/models.py:NodeManager.load_bulk", "treebeard/mp_tree.py:MP_NodeManager.fix_tree", "treebeard/mp_tree.py:MP_Node.move", "treebeard/ns_tree.py:NS_Node.move", "treebeard/al_tree.py:AL_Node.move", "treebeard/ltree/__init__.py:LT_Node.move"]}
{"id": "C55", "title": "Admin views, permissions and rollback", "statement": "A request to the admin that is denied, has errors in the form or its inlines, or raises an exception leaves the tree as it was, although the form writes before the inlines are checked; nothing is changed without the permission for it; all other requests do what they should.", "quantifier": "all trees, all users, all sequences of change forms, forms for new nodes, drags, deletions and lists", "why_tests_cant": "MoveNodeForm.save ignores commit=False, so TreeAdmin has to roll back; the promise is in its docstring. Dragging and the list must agree on who may move what.", "anchors": ["treebeard/admin.py:TreeAdmin._changeform_view", "treebeard/admin.py:TreeAdmin.move_node", "treebeard/admin.py:TreeAdmin.children_view", "treebeard/forms.py:MoveNodeForm.save", "treebeard/templatetags/admin_tree.py:tree_context"]}
{"id": "C56", "title": "The menu of reference nodes", "statement": "The menu 'Relative to' of the form lists the nodes of the tree in order without the branch of the edited node, each with its key and its text indented by its level; the browser shows the text as it is, whatever characters it has, and the options determine the tree.", "quantifier": "all trees, all nodes, all texts of nodes", "why_tests_cant": "Texts come from users; escaping and indentation must not be confused with what the text contains, and the position of a node is chosen by reading this menu.", "anchors": ["treebeard/forms.py:TreeNodeChoiceField._get_indent", "treebeard/forms.py:TreeNodeChoiceField.label_from_instance", "treebeard/forms.py:MoveNodeForm._set_ref_model_queryset"]}
{"id": "C57", "title": "Children in pages", "statement": "Expanding a row of the admin list shows every child of the node once, however many pages the children take.", "quantifier": "all numbers of children, all page sizes, changes of the tree while pages are loaded", "why_tests_cant": "The pages are requested one after the other by the script and cut by Django; the number of pages depends on the data.", "anchors": ["treebeard/static/treebeard/treebeard-admin.js:Node.loadChildren", "treebeard/admin.py:TreeAdmin.children_view"]}
{"id": "C58", "title": "Checking and fixing tables in any state", "statement": "find_problems puts every node of any table into the first of its five lists that applies, and into none if none applies. fix_tree() leaves no wrong depth or number of children, and the other problems as they are. fix_tree never loses a node or changes its values.", "quantifier": "all tables with unique paths, whatever their paths, depth and numchild are; the whole tree or a branch", "why_tests_cant": "Damaged tables come in more kinds than a test can build, above all missing ancestors and paths of an old steplen.", "anchors": ["treebeard/mp_tree.py:MP_NodeManager.find_problems", "treebeard/mp_tree.py:MP_NodeManager.fix_tree", "treebeard/mp_tree.py:MP_NodeManager._fix_numchild", "treebeard/mp_tree.py:MP_NodeManager._rewrite_node_path"]}
{"id": "C59", "title": "Moving a tree to other settings or another implementation", "statement": "dump_bulk and then load_bulk with keep_ids=True into an empty table gives the same forest: the nodes, their values, parents and order are kept when steplen, alphabet or node_order_by change, or when the table changes between the four implementations, any number of times. Changing steplen without this makes find_problems report every node.", "quantifier": "all stored forests; all settings of the old and the new table in which the forest has room; orders that the forest is in", "why_tests_cant": "It is the documented way to change steplen and the only way between implementations, and it needs what one implementation writes to be what another one reads.", "anchors": ["treebeard/models.py:NodeManager.dump_bulk", "treebeard/models.py:NodeManager.load_bulk", "treebeard/mp_tree.py:MP_NodeManager.dump_bulk", "treebeard/ns_tree.py:NS_NodeManager.dump_bulk", "treebeard/al_tree.py:AL_NodeManager.dump_bulk", "treebeard/mp_tree.py:MP_NodeManager.find_problems"]}
{"id": "C60", "title": "Searching and ordering in the admin list", "statement": "With a search, filters or an ordering of columns, each list of the admin (the roots, or the children of a node) holds exactly the nodes of that list that are accepted, ordered by the chosen columns, and in tree order among nodes with equal values. Opening every expander shows, in pre-order, exactly the accepted nodes all of whose ancestors are accepted, each once, with its level and parent. Accepted nodes below a node that is not accepted cannot be reached, expanders do not know the search, and dragging in a list ordered by a column does not put the row where it was dropped.", "quantifier": "for all forests, predicates, orderings and parents; four implementations", "why_tests_cant": "Searching is an everyday use of the admin; nodes that cannot be found, or rows shown under the wrong parent, mislead the editor.", "anchors": ["treebeard/admin.py:33-56", "treebeard/admin.py:75-104", "treebeard/templatetags/admin_tree.py:24-69", "treebeard/static/treebeard/treebeard-admin.js:51-74"]}
{"id": "C61", "title": "Dragging rows in the browser", "statement": "While a row is dragged over another one, the text beside the row announces what dropping will do: nothing on the row itself, a sibling in the upper half of the row, a child in the lower half; dropping then asks the server for exactly that, and the tree changes accordingly. Every request is about the row of the last dragstart and the row of the last dragenter, which are two different nodes.", "quantifier": "for all sequences of browser events, positions of rows and trees", "why_tests_cant": "The editor must get what the page announced; a wrong relation or a wrong node moves whole branches.", "anchors": ["treebeard/static/treebeard/treebeard-admin.js:108-217", "treebeard/admin.py:106-158"]}
{"id": "C62", "title": "Reading adjacency lists while others write", "statement": "get_tree, get_descendants, get_ancestors and get_depth of adjacency lists make one query per node, and other transactions may commit between two queries. If others only add nodes, get_tree and get_descendants return in depth-first order, with right levels, a tree between the tree at the first query and the tree at the last, and get_ancestors and get_depth are exact. If others add, delete and reorder nodes but never change a parent, no node is returned twice, every node is returned at a level it had, and every node that is there all the time is returned.", "quantifier": "for all trees, all orders of queries and committed calls, all max_depth", "why_tests_cant": "A listing that is used for a menu or an export must not lose or repeat branches because somebody else is editing.", "anchors": ["treebeard/al_tree.py:24-62", "treebeard/al_tree.py:207-224", "treebeard/al_tree.py:252-263", "treebeard/al_tree.py:305-330"]}
{"id": "C63", "title": "Remembered parents", "statement": "get_parent() keeps its answer in the node object, and add_child puts the object it was called on there. In a program that uses its objects as in C53, that moves a node by one object only while others of that node remember a parent, and that asks objects which are in order or remember, every get_parent() returns the parent that the node has in the tree at that time. Without these conditions it returns a node that is not the parent any more, with update=True as well.", "quantifier": "for all trees, all programs of fetches, adds, moves, deletes, reloads and calls of get_parent with and without update", "why_tests_cant": "A cache of the parent that outlives a move makes a page show the wrong place in the tree, and makes the nested sets code write there.", "anchors": ["treebeard/mp_tree.py:918-935", "treebeard/mp_tree.py:400-431", "treebeard/mp_tree.py:533-534", "treebeard/models.py:105-112", "treebeard/ns_tree.py:524-540"]}
{"id": "C64", "title": "The number of statements", "statement": "Nested sets and ltree add and move nodes with a bounded number of statements whatever is in the table, adjacency lists add with at most four. Materialized paths send, besides a bounded number, one UPDATE for each sibling that makes room at the new place. get_tree() is one statement, but for adjacency lists one plus one for every node that has children above the last level asked for; their ancestors and depth take one statement for each ancestor, and a move reads the whole branch. A successful call that adds or moves without node_order_by sends exactly the statements that its position asks for (materialized paths: at least one for each path_updated signal), a deletion at most one statement more than nodes are named. Dumping nested sets asks for the parent of every node that is not at the top, and looking for problems in materialized paths asks at most twice for every node.", "quantifier": "for all trees, tables, positions and orderings, and for failing calls as well", "why_tests_cant": "The tests of the project fix the number of statements of the reading calls; a loop that begins to ask for every node makes large trees unusable without changing any result.", "anchors": ["tests/test_treebeard.py:360-845", "treebeard/mp_tree.py:480-534", "treebeard/mp_tree.py:758-835", "treebeard/ns_tree.py:181-379", "treebeard/ns_tree.py:385-417", "treebeard/al_tree.py:24-62", "treebeard/al_tree.py:108-153", "treebeard/ltree/__init__.py:300-475"]}
{"id": "C65", "title": "Transactions that do not overlap", "statement": "Requests whose transactions do not overlap give what the calls give one after the other in that order, with the same exceptions, whatever part of the requests has been served; a statement changes and removes only rows that satisfy its condition at the moment it is done.", "quantifier": "for all trees, any number and mix of calls, every order and every part of them: add_root, add_child and delete of materialized paths with and without node_order_by, add_root, add_child and delete of nested sets, add_child and the sorted move of adjacency lists, add_child and delete of ltree", "why_tests_cant": "Ties the transactions of the concurrency model, statement by statement, to the sequential calls; a statement left out or changed in one of them shows up here.", "anchors": ["treebeard/mp_tree.py:32-86", "treebeard/mp_tree.py:339-476", "treebeard/ns_tree.py:112-179", "treebeard/al_tree.py:76-153", "treebeard/ltree/__init__.py:191-227"]}
{"id": "C66", "title": "Deletions that overlap", "statement": "Deletions whose transactions overlap in any way all succeed and leave what they leave one after the other in the order of their commits: the stored forest without the named nodes and what is below them.", "quantifier": "for all trees, any number of deletions, any lists of nodes and every interleaving of the statements: adjacency lists and ltree; materialized paths when no node is named twice; nested sets when the lists are in different trees", "why_tests_cant": "Two people delete at the same time. The rows are read before they are locked, so this is where counters and numbers are computed from rows that have changed.", "anchors": ["treebeard/mp_tree.py:32-86", "treebeard/ns_tree.py:30-73", "treebeard/ltree/__init__.py:99-128", "docs/source/al_tree.rst:59-92"]}
{"id": "C67", "title": "Calls in different trees", "statement": "add_child and delete calls whose transactions overlap in any way, but which are about different trees, give what the calls give one after the other in the order in which they end, with the same exceptions; none waits for ever.", "quantifier": "for all forests, any number and mix of add_child and delete calls no two of which name nodes of the same tree, and every interleaving of the statements: materialized paths with and without node_order_by, nested sets and ltree without", "why_tests_cant": "One tree per customer or per document is the usual way to keep requests apart; the known races must not reach across trees.", "anchors": ["treebeard/mp_tree.py:32-86", "treebeard/mp_tree.py:383-476", "treebeard/mp_tree.py:758-865", "treebeard/ns_tree.py:30-73", "treebeard/ns_tree.py:141-255", "treebeard/ltree/__init__.py:99-128", "treebeard/ltree/__init__.py:191-227"]}
{"id": "C68", "title": "Concurrent calls of all kinds on nested sets", "statement": "Transactions of any calls on nested sets that do not overlap do what the calls do; add_child, add_sibling, move and delete calls that overlap in any way, but are about different trees and make no root, give what the calls give one after the other in the order in which they end, with the same exceptions, and none waits for ever.", "quantifier": "for all forests, any number and mix of calls at any position, any node_order_by, and every interleaving of the statements", "why_tests_cant": "A move writes intervals that it has read before, statement by statement; that is safe only as long as nobody else numbers the same tree anew.", "anchors": ["treebeard/ns_tree.py:30-73", "treebeard/ns_tree.py:112-139", "treebeard/ns_tree.py:141-179", "treebeard/ns_tree.py:181-255", "treebeard/ns_tree.py:257-379", "treebeard/ns_tree.py:566-586"]}
{"id": "C69", "title": "Deprecated ways to add nodes", "statement": "The deprecated Node.add_root, add_child and add_sibling and the MP_Add...Handler classes add an unsaved instance or an object made of the keyword arguments, and refuse a saved instance and a mix of both; a handler can be processed again with the same effect.", "quantifier": "for all keyword arguments and instances, and any model constructor", "why_tests_cant": "The old names stay until treebeard 8 and are hardly tested; they rewrite the arguments before they pass them on.", "anchors": ["treebeard/models.py:58-86", "treebeard/mp_tree.py:964-1007", "treebeard/utils.py:44-70"]}
{"id": "C70", "title": "Forms made by movenodeform_factory", "statement": "The form shows exactly the model fields that are asked for and neither excluded by the caller nor tree fields, and the two fields of MoveNodeForm; the arguments of the caller are left alone.", "quantifier": "for all models, field lists and exclude arguments of every kind", "why_tests_cant": "A tree field that can be edited corrupts the tree; which fields are shown depends on three lists.", "anchors": ["treebeard/forms.py:196-213", "treebeard/mp_tree.py:1035", "treebeard/ns_tree.py:604", "treebeard/al_tree.py:297", "treebeard/ltree/__init__.py:544"]}
{"id": "C71", "title": "The path attribute of ltree nodes", "statement": "Reading the path attribute gives what was assigned or read from the database, as a path value, and save() writes it back unchanged, also when the field was deferred.", "quantifier": "for all values that can be assigned, all paths and both ways to read a row", "why_tests_cant": "The attribute is a descriptor that replaces the one of Django.", "anchors": ["treebeard/ltree/fields.py:40-59", "treebeard/ltree/fields.py:76-109"]}
{"id": "C72", "title": "Concurrent calls of all kinds on materialized paths", "statement": "Transactions of any calls on materialized paths that do not overlap do what the calls do, on any table; add_child, add_sibling, move and delete calls that overlap in any way, but are about different trees and make no root, give what the calls give one after the other in the order in which they end, with the same exceptions, and none waits for ever; the table then stores the forest of the calls that succeeded.", "quantifier": "for all forests, any number and mix of calls at any position, any alphabet, steplen and node_order_by, and every interleaving of the statements", "why_tests_cant": "A move rewrites the paths of its subtree and of later siblings by prefixes that it has read before; that is safe only as long as nobody else moves the same rows.", "anchors": ["treebeard/mp_tree.py:32-86", "treebeard/mp_tree.py:339-381", "treebeard/mp_tree.py:383-434", "treebeard/mp_tree.py:436-478", "treebeard/mp_tree.py:480-547", "treebeard/mp_tree.py:758-865"]}
{"id": "C73", "title": "Concurrent calls of all kinds on ltree paths", "statement": "Transactions of any calls on ltree paths that do not overlap do what the calls do; add_child, add_sibling, move and delete calls that overlap in any way, but are about different trees and make no root, give what the calls give one after the other in the order in which they end, with the same exceptions, and none waits for ever; the table then stores the forest of the calls that succeeded, up to the order of siblings.", "quantifier": "for all forests, any number and mix of calls at any position, any node_order_by and maximal label length, and every interleaving of the statements", "why_tests_cant": "Where a new label goes is computed from the labels of the siblings, and when there is no label left all siblings to the right are renamed with their subtrees; both are wrong when somebody else renames at the same time.", "anchors": ["treebeard/ltree/__init__.py:99-128", "treebeard/ltree/__init__.py:162-334", "treebeard/ltree/__init__.py:404-475"]}
{"id": "C74", "title": "Concurrent calls of all kinds on adjacency lists", "statement": "Transactions of any calls on adjacency lists that do not overlap do what the calls do; add_child, add_sibling, move and delete calls that overlap in any way, but are about different trees and make no root, give what the calls give one after the other in the order in which they end, with the same exceptions, and none waits for ever; the table then stores the forest of the calls that succeeded. With node_order_by the same holds of all calls, also of those that make roots.", "quantifier": "for all forests, any number and mix of calls at any position, any node_order_by, and every interleaving of the statements", "why_tests_cant": "The order of siblings is a number that is read before it is written, and move walks up the tree to see that it makes no cycle; both are wrong when somebody else writes in between.", "anchors": ["treebeard/al_tree.py:66-153", "treebeard/al_tree.py:265-288", "treebeard/al_tree.py:341-345"]}
{"id": "C75", "title": "Class of the nodes that managers return", "statement": "The nodes have the class that implements the tree (the first with a table), unless the model is a proxy for that class, when they have the class of the model; every node of the tree is found this way, also from inherited models. get_parent of adjacency lists gives the same class as all other methods.", "quantifier": "for all model classes: any line of abstract classes, classes with tables and proxies, and any rows", "why_tests_cant": "A tree can hold nodes of several inherited models; looking in the wrong table loses nodes.", "anchors": ["treebeard/models.py:181-203", "treebeard/al_tree.py:238-250"]}
{"id": "C76", "title": "Managers, the system check, and Node.delete", "statement": "Node.delete deletes the node and what is below it whenever the system check E001 passes; E001 is reported exactly when the default manager is not one of the tree, and the default manager is the first one that the class defines, or the inherited one.", "quantifier": "for all lists of managers on the model and its bases, all stored trees and nodes", "why_tests_cant": "With a manager that is not one of the tree, deleting a node leaves its descendants behind.", "anchors": ["treebeard/models.py:97-130"]}
{"id": "C77", "title": "Methods that have moved to the managers", "statement": "Every method that has moved from nodes to managers still works on nodes and runs the manager's method of the same name; no manager is left with a method that raises NotImplementedError.", "quantifier": "for all four kinds of tree and all names of methods", "why_tests_cant": "Deprecated entry points have to keep working until they are removed.", "anchors": ["treebeard/models.py:137-176", "treebeard/deprecation.py:8-48"]}
{"id": "C78", "title": "Kind of tree in the admin", "statement": "The admin finds the kind of tree of a model: the one class of Treebeard among its bases; it raises ValueError exactly for models that have none.", "quantifier": "for all names of the classes that a model inherits from", "why_tests_cant": "The template for the rows of the list is chosen by the kind of tree.", "anchors": ["treebeard/templatetags/admin_tree.py:8-21"]}
{"id": "C79", "title": "The SQL of ltree updates", "statement": "The UPDATE statements of moves and of insertions between siblings never ask PostgreSQL for a part of a path that is not there, and write the paths that the model of the calls (C30, C31) says, or raise DataError in the same cases; reading the text of a path gives the path.", "quantifier": "for all tables that store a forest, all nodes, old and new paths, and label limits", "why_tests_cant": "subpath raises when the start is past the end, which is why each update is done in two statements; negative positions would count from the end.", "anchors": ["treebeard/ltree/__init__.py:315-324", "treebeard/ltree/__init__.py:434-475", "treebeard/ltree/fields.py:125-153"]}
{"id": "C80", "title": "Updates mean the same in every database", "statement": "The UPDATE statements of materialized paths and nested sets write the same values whether later assignments see earlier ones (MySQL) or not, and whether / of integers is a whole or a decimal number; the two ways of fixing numchild write the same numbers. For nested sets the order of the assignments does not matter either.", "quantifier": "for all tables, paths, numbers, both readings of UPDATE and of /", "why_tests_cant": "The source warns that MySQL computes a later column from the new value of an earlier one; the depth therefore has to be set before the path.", "anchors": ["treebeard/mp_tree.py:836-865", "treebeard/mp_tree.py:158-164", "treebeard/mp_tree.py:240-269", "treebeard/mp_tree.py:326-335", "treebeard/ns_tree.py:356-363", "treebeard/ns_tree.py:566-580"]}
{"id": "C81", "title": "Concurrent add_root calls leave a tree", "statement": "Any number of add_root and add_child calls at the same time on a materialized path or ltree tree without node_order_by leave the tree of the calls that succeeded, one after the other. A call that fails changes nothing and fails as it would alone, or, an add_root, because another add_root took its path first; calling it again then succeeds. With one add_root no call fails because of the others. On an adjacency list no call fails and the parents are right.", "quantifier": "for all tables that store a tree, any number of calls, all schedules", "why_tests_cant": "add_root reads the last root without a lock; only the UNIQUE path keeps two roots apart.", "anchors": ["treebeard/mp_tree.py:339-381", "treebeard/mp_tree.py:383-434", "treebeard/mp_tree.py:1030", "treebeard/ltree/__init__.py:162-189", "treebeard/al_tree.py:64-93", "treebeard/ns_tree.py:112-179"]}
{"id": "C82", "title": "A second fix_tree changes nothing", "statement": "fix_tree called again does nothing: the fast one for every table and parent, fix_tree(fix_paths=True) for every table with intact paths, whatever depth and numchild were, and more generally for every tree whose siblings have the steps 1, 2, 3, ... in the right order.", "quantifier": "for all tables; with fix_paths for all tables with intact paths", "why_tests_cant": "A repair that never settles would rewrite paths, and send signals, each time it runs.", "anchors": ["treebeard/mp_tree.py:125-238", "treebeard/mp_tree.py:246-269"]}
{"id": "C83", "title": "Calls that undo each other", "statement": "Deleting a node that was just added gives the tree as it was. Moving a node back to the place where it was, named by any neighbour, by any sibling or by its parent, gives the tree as it was; moving it to the place where it is changes nothing.", "quantifier": "for all tables that store a tree, all ways to add, all first moves, all names of the old place", "why_tests_cant": "Users undo a drag by dragging back, and a wrong addition by deleting; gaps, counters and labels left behind must not show.", "anchors": ["treebeard/mp_tree.py:28-88", "treebeard/mp_tree.py:339-579", "treebeard/ns_tree.py:26-75", "treebeard/ns_tree.py:112-379", "treebeard/al_tree.py:64-153", "treebeard/ltree/__init__.py:162-334"]}
