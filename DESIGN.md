# Formal model of django-treebeard: design

The source is read as text in /repo (pinned commit) and modelled by hand in
Rocq (Coq 8.16.1) under `rocq/theories`.

## 1. Trusted base

* Coq's kernel (and `coqchk` on the compiled files).
* What `Print Assumptions` prints for each theorem: "Closed under the global
  context" everywhere, so no axioms at all (section 6).
* The hand translation from Python to Gallina.  Each definition in a `*Model.v`
  file cites the file and lines it models and says where it simplifies.
* The database semantics assumed below.

### Database semantics assumed

* A table is an unordered list of rows; theorems quantify over tables *up to
  permutation*, so no result depends on a storage order.
* `filter/exclude/order_by/first/last/count/aggregate` are list filter, stable
  sort, head, last, length, max/min.
* `UPDATE ... WHERE` is a map over the rows.  `UNIQUE(path)` is checked
  conservatively: an update fails with IntegrityError if any new value equals an
  old or new value of another row (PostgreSQL/SQLite check row by row in an
  unknown order, so success in the model implies success for every order).
* `transaction.atomic` / `savepoint`: an exception restores the old table.
* Text comparison of path strings is comparison in alphabet order (the
  documentation demands an alphabet that sorts like the database collation).
  In MPModel a path character *is* its index in the alphabet; C51 proves for
  MPTextModel, which has strings, that this makes no difference if the alphabet
  is in collation order and not folded by LIKE.  Python compares paths by code point
  (`py_lt` in `mp_cfg`, used by `move` at two places); `mkCfg` is the case where that is
  the order of the alphabet too.  The tree theorems hold for any `py_lt` that is irreflexive,
  except the edit of a node in a sorted tree, which needs `py_agrees` (C51_edit_refuted).
* Primary keys are opaque numbers handed out fresh on insert.

## 2. Specification

`Forest.v`: an ordered forest is `Nil | Cons a children right_siblings`, so
one inductive type with plain structural induction.  The abstract operations
(append root, append child, insert left/right/first/last of a node, remove a
subtree, move) and queries (preorder, children, ancestors, siblings, ...) are
defined on that type only.  Each tree implementation is proved to refine these:

    stores table forest  ->  op table = Ok table'  ->  stores table' (spec_op forest)

`stores` for the four implementations says how a forest is laid out:

* MP: sibling lists carry strictly increasing step numbers; row path is the
  concatenation of the encoded steps, depth its length, numchild the number of
  children.
* NS: nested set numbering computed from the forest; strictly increasing tree ids.
* AL: parent pointer and strictly increasing sib_order in each sibling list; with
  node_order_by (where sib_order does not exist) any forest whose siblings are sorted,
  so a table with equal siblings stores several forests.
* LT: sibling lists carry strictly increasing labels of at most `label_max` characters.

For MP and LT there is also a characterisation by the rows alone (C03_invariant,
C09_clean, C30_rows), and `stores` determines the forest (C03_unique, C30_unique), so it
cannot be satisfied vacuously.  The forest operations themselves are checked against
statements that mention only the lists of children before and after (`added`, `moved`,
`kid_list` in SpecSane.v).

## 3. Files

Specification: `Forest` (forests, operations), `SpecFacts`, `SpecSane`, `SpecKids`,
`SpecPerm`, `SpecRun` (facts about them), `Order` (sorting by node_order_by), `History`
(sequences of calls on forests), `Fixture` (the example trees).

| models | of | proofs | theorems |
|---|---|---|---|
| NumConv | numconv.py | NumConv | PropsBase |
| CommonModel | models.py: positions, sorted filter, create args | Order, PathTab, PathMove, PathDel, PathRead (tables keyed by paths, for MP and LT) | PropsBase |
| MPModel, MPFixModel | mp_tree.py, find_problems and fix_tree | MPStep, MPInv, MPCount, MPShift, MPReorder, MPAdd, MPMove, MPMoveOk, MPDelete, MPReads, MPHist, MPCheck, MPFixLevel, MPFixPaths, MPSignals, MPRoom | PropsMP, PropsMPFix, MPRefuted |
| NSModel | ns_tree.py | NSInv, NSReads, NSUpd, NSAdd, NSCut, NSMove, NSMoveOk, NSDelete, NSHist, NSCheck, NSSignals | PropsNS, NSRefuted |
| MPTextModel | mp_tree.py on strings, with the collation and LIKE of the database | MPText | PropsMPText |
| ALModel | al_tree.py | ALInv, ALReads, ALUpd, ALOk, ALHist, ALAnswers | PropsAL, ALRefuted |
| ALCacheModel | al_tree.py with cached parent objects in a heap | ALCache | PropsALCache |
| LTModel, LTText | ltree/__init__.py, ltree/fields.py | LTLabel, LTInv, LTShift, LTNewPath, LTAdd, LTMove, LTReads, LTHist, LTCalm, LTCheck, LTTextFacts, LTSignals | PropsLT, PropsLTSig, LTRefuted |
| AnnModel | get_annotated_list and the documented template | AnnFacts | PropsAnn |
| BulkModel | dump_bulk, load_bulk | BulkFacts, BulkDump, BulkTrees, BulkLoad, BulkMP, BulkCreate, BulkLT, BulkLTSorted, BulkLTRoots | PropsBulk, PropsKeep, PropsMigrate |
| FormModel | forms.py MoveNodeForm | FormSpec, FormFacts, FormNS, FormSorted | PropsForm, PropsFormSorted |
| AdminViewModel | admin views with permissions and transactions (admin.py:22-158) | AdminView | PropsAdminView |
| SiteModel | requests of all kinds one after the other (admin.py:106-158, forms.py:70-190, models.py:438-487) | Site, SiteMP, SiteNS, SiteAL, SiteLT | PropsSite |
| SessionModel | programs that keep node objects (docs/source/caveats.rst) | Session, SessionMP, SessionNS, SessionAL, SessionLT | PropsSession |
| AdminJSModel | treebeard-admin.js: expanding and collapsing rows | AdminJS | PropsAdminJS |
| MenuModel | forms.py:12-28,96-122: the options of the menu as HTML | MenuFacts | PropsMenu |
| PagesModel | treebeard-admin.js:51-71 and admin.py:81-104: children in pages | | PropsPages |
| AdminModel, InheritModel | admin.py: tree views, dragging, lists of inherited models | | PropsAdmin, PropsInherit |
| ReadModel | al_tree.py:24-62, 207-224, 252-263, 305-330, one table per query | Grows, ReadFacts | PropsRead |
| ParentModel | mp_tree.py:918-935, 431, 533-534, models.py:105-112 on top of SessionModel | ParentFacts | PropsParent |
| QueryModel | the statements sent by mp_tree.py:99-835, 867-947, ns_tree.py:140-417, 490-564, al_tree.py:24-153, 207-346, ltree/__init__.py:250-475 | QueryFacts, QueryBounds, QueryAL, QueryMP, QueryWide, QueryExact | PropsQuery, PropsQueryExact |
| DragModel | treebeard-admin.js:108-217, dragging in the browser | | PropsDrag |
| SearchModel | admin.py:33-104 with a search, filters or an ordering | SearchFacts | PropsSearch |
| CrashModel | which statements are committed when | CrashFacts | PropsCrash |
| ConcModel | concurrent transactions | ConcRun (any serializable program), ConcMP, ConcLT, ConcNS, ConcAL; ConcAlone (transactions that do not overlap), ConcCalls; ConcLock (transactions that lock before they change anything others read), ConcDelMP, ConcDelRows, ConcDelAL; ConcLocal (transactions that use different rows), ConcTrees, ConcTreesPath | PropsConc, PropsConcAlone, PropsConcDel, PropsConcTrees |
| OldModel | deprecated methods and handlers, movenodeform_factory, the path attribute of ltree nodes | | PropsOld |
| ConcNSModel | all calls on nested sets as transactions | ConcNSAll (alone, they do what the calls do), ConcNSTrees (in different trees they do not disturb each other) | PropsConcNS |
| ConcMPModel | all calls on materialized paths as transactions | ConcMPAll, ConcMPTrees (as for nested sets) | PropsConcMP |
| ConcLTModel | all calls on ltree paths as transactions | ConcLTAll, ConcLTTrees (as for nested sets) | PropsConcLT |
| ConcALModel | all calls on adjacency lists as transactions | ConcALAll, ConcALTrees (as for nested sets) | PropsConcAL |
| ClassModel | class of the nodes, managers, moved methods, kind of tree in the admin | – | PropsClass |
| LTSqlModel | UPDATE statements of ltree trees with PostgreSQL's functions | – | PropsLTSql |
| SqlModel | UPDATE statements of materialized paths and nested sets in different databases | – | PropsSql |
| all four (add and delete, move and back) | undoing | SpecUndo | PropsUndo |
| MPFixModel (fix_tree again) | second fix_tree | MPFixAgain | PropsMPAgain |
| ConcModel, ConcLTModel, ConcALModel (add_root and add_child together) | concurrent add_root | ConcRoots, ConcLTRoots, ConcALRoots, ConcNSRoots | PropsConcRoots, PropsConcLTRoots, PropsConcALRoots, PropsConcNSRoots |
| | all implementations against each other | | Backends, BackendsLT |

Not modelled: Django itself, SQL generation, proxies / multi-table inheritance
(`tree_model`) outside of the lists of the admin, many-to-many and foreign-key resolution of load_bulk,
serializers, HTML templates, the look of the page, translation, checks at class
creation.

### Simplifications by file

* MP: a path is a list of digits; max_length counts characters (`maxlen`).  The
  bulk insert of load_bulk does not enforce it (SQLite does not; PostgreSQL
  would raise DataError instead of storing what C13_deep_refuted shows).
* NS: positions are integers (Z), not bounded by the column type.
* LT: a label is a list of alphabet indexes 0-9, A-Z; the limit of the length of
  a label is a parameter (`label_max`), the limit of the number of levels is not
  modelled; text is 8-bit characters in LTText.  UNIQUE(path) is deferred.
* AL: objects carry `_cached_depth`; recursion of get_descendants is structural
  on fuel (Python's recursion limit is not modelled).
* Bulk: the explicit stack of load_bulk is a recursion over the data; primary
  keys are taken from a counter unless keep_ids.
* Forms and admin: the choice lists and the request are decoded values; the
  widget HTML is not modelled.
* Crash: autocommit outside of `transaction.atomic`; a crash rolls back the open
  transaction.  `transaction.atomic` without `using` covers the default database.
* Concurrency: READ COMMITTED with row locks as in PostgreSQL, see the head of
  ConcModel.v.

## 4. Approach per property

| id | modelled | how |
|---|---|---|
| C01, C02 | NumConv over digit lists and over character alphabets | induction on fuel / digits |
| C03-C08 | MPModel over strings of alphabet indexes, arbitrary radix >= 2, steplen >= 1 | refinement to Forest through step-keyed forests, invariant over histories |
| C09-C10 | find_problems, fix_tree | characterisation of tables that are layouts of forests |
| C11 | fix_tree(fix_paths=True) | invariant of one turn of the queue loop on the list of (step, subtree) pairs, then induction on the queue; the result is compared by lists of children |
| C12, C13, C22 | dump/load | induction on forests |
| C48 | load_bulk with used keys: `save()` updates an existing row | computed witnesses, induction on forests |
| C14, C23, C46 | signal traces as returned lists | replay of the trace equals the update |
| C15 | sorted variants of add/move | invariant `siblings sorted` |
| C16-C21 | NSModel | numbering lemmas for insertion and removal of a subtree |
| C24 | in-memory objects are rows passed in and returned | proofs and refutations |
| C25-C28 | ALModel | refinement |
| C29-C33 | LTModel | refinement, refutations by computation |
| C34, C35, C43 | direct translation of decision code | case analysis, induction on the field list |
| C36 | annotated list fold and the documented template | induction on forests |
| C37, C38, C44, C45 | part of the implementations | corollaries |
| C52 | table rows with data attributes and classes, events | the page as a function of the open, known and awaited nodes |
| C55 | the requests of C54 behind permission checks, the transaction of a view and its rollback flag | asks/granted/flawless on a request and a user |
| C54 | tables and requests with primary keys; the models of C03, C12, C10, C42 and C45 | the relation served/declined/raises on forests |
| C53 | lists of objects that the calls change in place, nested set objects with a cached parent | the tree, the primary keys of the objects and which of them are up to date |
| C56 | code points, SafeString, html.escape, the choices of C42 with depths | a relation between HTML and what it shows; the levels of C36 |
| C58 | MPFixModel on arbitrary tables | classification of each row; all counts depend on the paths only |
| C59 | BulkModel across implementations | every dump is the forest; every empty table takes it; ltree by the invariant that labels are the first letters |
| C60 | the lists of C45, filtered and stably sorted | the shown tree is a forest (view); expanding everything is its outline |
| C61 | the handlers of the drag events as a state machine | each variable keeps its value over events of other kinds |
| C62 | query number k sees the table env k | the line of ancestors of a node is the same in all tables, so the recursion of _get_tree_recursively only finds nodes below the line it started from; for adding, the answer is filled in between two forests of the relation grows |
| C63 | _cached_parent_obj beside each object of a session | a cached parent has the primary key of the parent of the node as long as the node is there; only a move of that node changes its parent, and it clears the cache of the object it is made with |
| C64 | a counter beside the result of every call, one tick for every evaluation of a QuerySet, aggregate, get(), save() or raw statement | without the counter the calls are those of the models; the counts are added up along the calls |
| C65 | the calls one after the other (one_by_one of C41) | a transaction among others that are finished or not begun runs through and leaves what its statements do to a table of their own; that is compared with the calls one by one |
| C66 | remove_all of the named nodes, in the order of the commits | what a deletion has read and no longer holds is still covered by its conditions: the rows it would remove now are those it removes; the first statement that changes rows waits for the others |
| C67 | the root above a node; the calls one after the other | a transaction whose statements select rows of a domain only, and whose reads depend on these rows only, runs as if the others were not there; the rows of the named trees are such a domain |
| C68 | the calls one after the other; the forest after those that succeeded | as C67; what a call reads next is known from the rows of its own trees, because these rows store a forest |
| C72 | as C68 | as C68; the rows of a tree are those whose path begins with the step of its root |
| C73 | as C68 | as C72, with the label of the root; the constraint on paths is never violated by a call alone (LTHist.lt_step) |
| C74 | as C68 | as C68; the rows of a tree are those whose parent (or, for a root, own) key is a key of the tree |
| C75 | the class with a table none of whose bases has one | a line of classes, each abstract, with a table or a proxy |
| C76 | `stores` and `remove` as in C02, C16 | managers of each class, in the order of definition |
| C77, C78 | lists of names | – |
| C79 | the functions of LTModel (C30, C31) | subpath, ltree2text and text2ltree as PostgreSQL documents them |
| C80 | the functions of MPModel, MPFixModel and NSModel | assignments from left to right or at once; / whole, or decimal and rounded when stored |
| C83 | `mp_exec`, `ns_exec`, `al_exec`, `lt_exec` | `place_of`, `sorted_place_of` (lists of children, `lexlt`), the forest before |
| C82 | `fix_tree` of MPFixModel | equality; `consecutive`, `strictly`, `no_ties` |
| C81 | `mp_add_root`, `mp_add_child` of ConcModel, `lt_add_root_by` of ConcLTModel, `lt_add_child`, `al_new` of ConcALModel, `ns_add_root` | `grow` (sp_add_root, sp_add_child), `serial` (calls one after the other) |
| C69-C71 | the accepted arguments; the set of fields; the text in the column | by cases |
| C57 | the request loop, Django's Paginator and ChangeList.get_results | invariant: the rows so far are a prefix of the children |
| C49 | rows with a class predicate | the lists are filters of those of C45 |
| C51 | MPTextModel, arbitrary alphabet and comparisons | simulation between strings and indexes, function by function |
| C50 | ALModel with a heap of instances | invariant over chains of cached parents (`current`) |
| C39, C47 | all implementations | corollary of the refinements |
| C40 | operations as lists of committed states | case analysis over prefixes |
| C41 | small-step interleavings of transactions with row locks | invariant over schedules: every running transaction is where it would be if it ran alone on the rows committed now |
| C42 | decision logic of the form on top of the forest spec | corollaries |

## 5. Findings: where the code does not do what the property says

Each has a `_refuted` theorem with a computed witness; the part that is true is
proved beside it.

Materialized paths
* `move` needs two free steps behind the siblings: the temporary path is not checked
  and can corrupt the table (C03_room_refuted, C05_room_refuted) or fail with
  IntegrityError (C05_integrity_refuted) or PathOverflow without need
  (C08_needless_overflow_refuted); `max_length` is not checked by `move`
  (C08_max_length_refuted).
* On SQLite an alphabet with upper and lower case letters, in the order of the collation,
  mixes branches up: `delete` of one deletes another (C51_case_refuted).
* With an alphabet in the order of a collation like a A b B, as the documentation demands, the
  database and Python (`move`: `if node.path > newpath`) disagree.  The tree is right
  nevertheless (C51_tree_partial), but more siblings are shifted and the steps may be used up
  without need (C51_overflow_refuted), and moving an edited node to its sorted place can fail
  with IntegrityError (C51_edit_refuted).
* `move` leaves a wrong numchild in the caller's target (C24_mp_move_refuted).
* `find_problems` misses broken tables whose paths are empty or end in a zero
  step (C09_exact_refuted).
* `find_problems` counts a path of a wrong length as a child, `fix_tree` does not, so that a
  node is reported again after every fix (C58_numchild_refuted).
* `fix_tree(fix_paths=True)` in a table with orphans: a node moved into the place of the missing
  parent gets the orphan as a child (C58_adopted_refuted), or the UPDATE fails with
  IntegrityError (C58_collision_refuted).
* `fix_tree(fix_paths=True)` fails with node_order_by on full sibling lists (C11_overflow_refuted); C11_fix_paths shows that this is the only way to fail.
* `load_bulk(bulk_create=True)`: unsorted first level with node_order_by corrupts
  the table, too many children or levels are not noticed (C13_*_refuted).
* `delete` commits the numchild updates before the DELETE (C40_mp_delete_refuted);
  fix_tree repairs what a crash leaves (C40_mp_fix).
* `transaction.atomic` without `using` does not cover a second database
  (C40_other_database_refuted).
* Sorted `add_child`, concurrently with another: the child of a shifted sibling ends
  up below the new node (C41_mp_sorted_refuted); `add_root` fails with IntegrityError
  (C41_mp_add_root_refuted).
* `delete` takes no lock: a child added meanwhile to a node that is being deleted stays as
  an orphan (C41_mp_delete_refuted).
* Two concurrent deletions of one node lower `numchild` of the parent twice: the parent passes for a
  leaf and its other children are not found any more (C66_mp_twice_refuted). Deletions of lists
  can wait for each other for ever (C66_mp_stuck_refuted).

Nested sets
* `add_child` leaves `target.rgt` two too large in memory (C24_ns_add_child_refuted);
  `last-sibling` uses the cached parent (C24_ns_stale_parent_refuted).
* `find_problems` accepts gaps and roots that are not depth 1 (C21_gaps_refuted,
  C21_root_refuted).
* `delete` is not atomic (C40_ns_delete_refuted).
* Concurrent `add_child` in one tree corrupts the numbering, `add_root` gives one
  tree_id to two trees (C41_ns_refuted, C41_ns_add_root_refuted).
* Concurrent deletions in one tree use numbers that are out of date: the numbers left are those of no
  tree (C66_ns_refuted), and a node that is below none of the named ones can go
  (C66_ns_other_refuted).
* Two moves in one tree of nested sets that overlap can both commit and leave broken intervals
  (C68_one_tree_refuted); a call that makes a root renumbers the other trees and disturbs moves
  there (C68_roots_refuted).  The same with paths: one of two moves in one tree is lost and a
  numchild is wrong (C72_one_tree_refuted); a call that makes a root before others rewrites their
  paths, and a move in one of these trees then writes to rows of another one, so that a node that
  no call names becomes an orphan (C72_roots_refuted).  UNIQUE(path) is checked by an UPDATE
  against the rows that it sees; the examples have no equal paths.  With ltree: add_child locks
  the row of its node but takes the path from the object, so that a node added during a move has no
  parent (C73_one_tree_refuted); a call that makes a root before others renames them
  (C73_roots_refuted).  The deferred UNIQUE(path) is checked by INSERTs only.
  With adjacency lists: two moves in one tree can make a cycle (C74_one_tree_refuted), and two new
  roots can get the same sib_order (C74_roots_refuted); with node_order_by sib_order is not read, so
  making roots is safe (C74_sorted_trees).  The loops that follow parent and collect children have a
  fuel, which is enough when it exceeds the number of rows, old and new.
- Model classes (C75–C78): one base that is a model (no mixins).  Found: E001 looks at
  `_default_manager` while delete uses `objects` (C76_check_refuted); get_parent of adjacency lists
  raises DoesNotExist on proxies of inherited models (C75_al_inherited_refuted); nodes of a proxy of a
  proxy have the base class (C75_proxy_refuted); fix_tree and find_problems raise AttributeError on
  kinds of tree whose manager has none (C77_refuted).
- SQL of ltree (C79): text2ltree checks the lengths of labels, not their characters; comparisons of
  paths are those of LTModel.
* Creating with MoveNodeForm left or right of a last child with children raises
  IndexError or misplaces (C42_ns_create_refuted).

Adjacency lists
* `get_parent(update=True)` and `get_depth(update=True)` return outdated answers: they follow
  the parent objects that Django has cached (C50_refuted).
* `move` keeps `_cached_depth`: get_depth and annotated levels are wrong afterwards
  (C28_after_move_refuted, C27_stale_levels_refuted).
* next/previous sibling raise AttributeError with node_order_by (C27_neighbours_refuted).
* Two adds through one object give equal sib_order (C24_al_target_refuted,
  C24_al_target_right_refuted); so do two concurrent adds (C41_al_refuted).
* Two concurrent moves can make a loop (C41_al_moves_refuted): the check for descendants
  takes no lock.

Ltree
* `_move_subtree_right` appends "A" to labels, which is not monotone; `add_root` and
  sorted insertion at the end take the first free label, which need not be the last
  (C30_*_refuted, C31_move_refuted, C29_*_refuted); adding a first sibling and deleting it
  can leave two others swapped (C83_lt_refuted); hence loading 27 roots reorders them
  (C12_lt_round_trip_refuted).  There are only 702 labels for roots.
* PathValue accepts a trailing newline and blanks (C33_*_refuted).
* Dragging in the admin: DataError is not caught (C45_lt_drag_refuted).
* TreeAdmin._changeform_view marks the transaction of the default database for rollback, not that of the
  model's database (admin.py:64): with another database and ATOMIC_REQUESTS a form with
  errors is kept (C55_other_database_refuted), without ATOMIC_REQUESTS the answer is a 500.
* Deleting a node in the admin asks for the permission for the nodes below it only with adjacency
  lists, whose rows have foreign keys (C55_delete_refuted).
* The change form of an adjacency list accepts reference nodes of the own branch that it does not
  offer (forms.py:117); the request then raises InvalidMoveToDescendant instead of showing the form
  with an error (C54_al_own_branch_refuted).
* Contrary to docs/source/caveats.rst:7-12 the target of add_sibling is not refreshed. With
  materialized paths a later move of that object moves another node
  (C53_mp_wrong_node_refuted), with ltree a child added to it has no parent
  (C53_lt_orphan_refuted). The right edge of a nested set parent is not refreshed by add_child
  (C53_ns_edge_refuted), nor is the parent that a new child remembers (C53_ns_parent_refuted).
* With the parameter `all` in the address (the link "Show all") the script requests as many pages as
  the paginator counts, and each answer has all children: every child is shown several times
  (C57_show_all).  A deletion while pages are loaded can make the last request a 500, since
  children_view does not catch IncorrectLookupParameters (C57_deleted_refuted).
* Search, filters and orderings of the admin list are repeated for the children: a match below
  a node that does not match is never shown (C60_missed_refuted), expanders can have nothing
  below them (C60_expander_refuted), and a drop in a list ordered by a column changes the tree
  but not the list (C60_drag_refuted).
* A row dropped before the first drag event over another row is placed as was announced for the
  row before (C61_early_drop_refuted).  draggedNode is never reset: after a drag that was given
  up, a file or link dropped on a row moves the row of that drag (C61_foreign_refuted).
* Reads of adjacency lists are not atomic: a move that commits meanwhile makes get_tree miss a
  branch or return it twice (C62_missed_refuted, C62_twice_refuted), and get_ancestors mixes two
  states (C62_ancestors_refuted) or raises DoesNotExist (C62_deleted_refuted).
* A node object goes on answering the parent it remembers after its node was moved by another
  object (C63_mp_moved_refuted); update=True does not help if the path of the object is out of date:
  it returns the node that is now at the place of the parent (C63_mp_update_refuted).
* Adding a node at the first place among n siblings of materialized paths sends n + 2 statements or
  more (C64_mp_refuted); nested sets, "high maintenance" by docs/source/choosing.rst:9, never more
  than 13. dump_bulk of nested sets asks for the parent of every node that is not at the top, one
  statement each (C64_ns_dump).
* The first option of the menu of adjacency lists is "--------" instead of "-- root --" (C56_al_menu).
* The admin list shows children below a hidden row if a row is collapsed while a request
  is on its way (C52_early_click_refuted); after a failed request the children of the node
  cannot be loaded any more (C52_lost); key 0 makes collapsing endless (C52_zero_refuted).

All
* `load_bulk(keep_ids=True)` does not fail if primary keys are already used, it overwrites
  the rows: their children are orphaned, in AL a node can become its own ancestor
  (C48_*_refuted).  Only the descendants with `bulk_create` are checked.
* `max_depth=0` means "unlimited" in NS, AL and LT but not in MP (C37_*_refuted).
* Admin lists of inherited models: expanders with nothing below them for MP, NS and LT
  (C49_*_refuted).
* The form re-sorts an edited node only if the position, the reference node or a column in
  ascending order was changed (the names in `changed_data` have no leading `-`).  A change of
  a descending column alone leaves the node at its old place in MP, NS and LT
  (C42_sorted_edit_refuted).  With ascending columns only, an edit keeps the order
  (C42_mp_ascending, C42_ns_ascending).  AL trees always end up sorted because the order is
  in the queries (C42_al_edit_sorted).
* The deprecated MP_Add...Handler classes take "instance" out of their dictionary, which is that of
  the caller for children and siblings: the second process() adds an object with default values
  (C69_twice_refuted).  movenodeform_factory changes a list given as `exclude` in place
  (C70_list_refuted).  A deferred ltree path cannot be read: KeyError (C71_deferred_refuted).
* get_annotated_list: `max_depth` is an absolute level; the `close` lists printed in
  docs api.rst 352-372 are not what the code returns (C36_relative_refuted).

## 6. Axioms

Every theorem named in MANIFEST.json is followed by `Print Assumptions` in its
`Props*`, `*Refuted` or `Backends` file.  All print "Closed under the global
context"; `coqchk -o` reports no axioms.  No functors, no module types, no
`Admitted`, no kernel flags.

## 7. Mutation tests

`seeded/LOG.jsonl` has one line for each deliberate error put into a definition of
the models in a scratch copy, with the theorems that failed.  Mutants that no
theorem noticed led to stronger theorems; the entry names them.

## 8. Disagreements between the property list and the code

Properties were written from the documentation and docstrings before the proofs.  Where
the code differs, the property is kept, its status in MANIFEST.json is `partial` and
the refutation is listed in section 5.
