# Verification of `normalize` (hearsaycorp/normalize) in Rocq

The code in `/repo` is only read; every definition below is a hand-written Gallina
transcription, each with a comment naming the file and lines it follows.
`properties.jsonl` is the list of claims, `MANIFEST.json` maps each claim to theorems,
`seeded/LOG.jsonl` records the mutation experiments on the model.

## 1. Shape of the development

* One group of files per area: `X.v` / `XModel.v` (definitions, transcribed function by
  function), `XProofs.v` (lemmas) and `XProps.v` (the theorems named in MANIFEST.json,
  each followed by an `Example` instantiating its hypotheses, and `Print Assumptions`).
* Python exceptions are values: every function that can raise returns `res A := Ok a | Err e`,
  with `e` an enumeration of the exception classes that the code distinguishes.
* Mutation is modelled by returning the new state together with the outcome, *also when
  the outcome is an exception*, so that partial effects of a failing call are visible.
* User supplied functions (type predicates, coercions, checks, defaults, Unicode tables,
  item conversions) are universally quantified section variables or record fields. They
  are never axioms. Where they may be stateful the state is threaded explicitly.
* Loops are structural recursion or folds; where Python recursion is not structural, fuel
  with an explicit `RecursionError` outcome on exhaustion.
* Iteration over Python sets is nondeterministic (hash order); it is modelled by an
  arbitrary permutation supplied from outside, and theorems quantify over it.
* Specifications are small independent definitions (`Spec…`/relations stated over paths,
  multisets, word lists, finite maps) which do not call the modelled helpers.

## 2. Per property: what is modelled and how it is proved

| id | model | proof idea |
|---|---|---|
| C01 | generic backtracking regex matcher (ordered list of all matches), the two regexes of selector.py, `finditer`, `re.sub` unescape, `_fmt_selector_path` | matcher on the key regex = deterministic scanner; scanner inverts formatter by induction; witnesses outside the domain |
| C02 | `__lt__`, `__eq__` on element lists | equals lexicographic order; order laws by induction |
| C03 | `__add__`, `extend`, `__getitem__`, `startswith` | list algebra |
| C04–C07 | object trees (scalars, lists, dicts, records with declared properties); `get/put/post/delete` transcribed with exceptions | induction on the path; frame = agreement on all incomparable paths |
| C08–C10 | MFS as finite-branching tree, constructor on argument lists, `__iter__`, `__getitem__`, `__contains__`, `path`, `_scan_mfs_path` | denotation as a set of paths; all operations refined against it |
| C11–C12 | `MultiFieldSelector.get/delete` on the object trees of C04 | induction on the tree |
| C13–C20 | property kinds (plain, safe, ro, lazy, v1 and mixes), `type_safe_value`, `init_prop`, `__get__/__set__/__delete__`, `Record.__init__`; operations as a state machine; defaults may be stateful programs that use the record re-entrantly | invariant by induction on histories; failure atomicity per operation |
| C21–C23 | `ListCollection`, `DictCollection` operations over Python list/dict semantics | invariant by induction; refinement to list/map functions |
| C24–C25 | value universe with records/collections, `__eq__`, `record_id`, `__hash__` | nested induction |
| C26 | `re.split(r'\s+')` + join | words specification |
| C27, C29–C31 | `compare_*_iter`, `_diff_iter` with all options and filter | nested induction; fuzzy matching is symmetric because a greedy choice is determined by the relative order of conflicting pairs, which a stable sort preserves. C30: an independent description of when two trees agree and of which entry is due at which path; both directions by nested induction, no path twice by locating every entry under its slot or item. C31: one lemma relates two runs of the comparison of identified items; it is used with three relations (same entries and all of them selected; same entries for two inputs; entries of the filtered run are a sublist of those of the unfiltered one) |
| C28 | `compare_list_iter`, `compare_dict_iter`, `normalize_item` | every entry characterised by counting; then counting arguments |
| C32 | `_fuzzy_match` | the memo is transparent; stable sort is sorted; invariant of the greedy loop |
| C33 | `create_property_type_from_traits`, `has`, `MetaProperty.__new__` | invariant of registries (traits of a type are those its MRO declares) preserved by every class creation; termination by counting the sub-tuples of the wanted traits not yet registered (at most `2^n`); the library's registry satisfies the invariant by evaluation |
| C34 | `RecordMeta.__new__`, with `set_name`, `bind`, `aux_props`, `eager_init` on a heap of property objects | the loop over the class body is put in closed form (the fresh properties of the body; naming and binding as folds over them); finite-map reasoning |
| C35 | `subtype.__instancecheck__`, the generated `__new__`, as type and coercion of a property of `PropModel` | `inst` decides an inductive conformance relation; case analysis; the slot invariant follows from C13 |
| C36 | `placeholder`, `itertypes`, `EmptyVal`, `EmptyAuxProp` with the global table and per-object caches | invariant of the store (keys unique, one object per key, caches hold what would be inferred) preserved by every step; `itertypes` refines an inductive first-seen relation |
| C37 | `json_to_initkwargs`, `from_json`, `to_json`, `_json_data`, `JsonRecord`, `JsonRecordList`, `JsonRecordDict`, with property construction (`init_prop`) | mutual induction over the representable records (`fits`); a record's output and what reading it gives are related property by property (`conv`) |
| C38 | same | closed form of the reading loop and of the emitting loop |
| C39 | same, exceptions as path and cause | a relation `reach` describes the position loading has come to; both directions by induction (on the nesting; on `reach`) |
| C40 | `convert_json_key_in/out` as scanners for the two regular expressions; `auto_upgrade_*`, `AutoJsonRecord` loading and `json_data` | strong induction on the key; nested induction on documents |
| C41 | `VisitorPattern.visit`, `cast` with `map`, `map_prop`, `map_record`, `map_collection` and the default hooks | mutual induction over the values that hold (`holds`), for all positions at once |
| C42 | `Visitor.is_filtered` and the same, for visit, with any apply hook | the relation `leads` gives position and place of everything shown; presence by induction on it, the converse by induction on the length of the place, independence by induction on the agreement of two values and on the size of the value |
| C43 | `Record.__getstate__/__setstate__`, `_Generic.__reduce__`, `_GenericPickler`, `Collection.__init__` with an arbitrary loading process | nested induction over values; exact result for generic collections |
| C44 | `_make_generic`, `list_of`, `dict_of`, `GENERIC_TYPES`, `sys.modules` | invariant relating the table to the history of answers |
| C46 | `FieldSelector.__init__` on lists of proper and improper elements | case analysis |
| C47 | `MultiFieldSelector.patch` on the object trees of C04 | induction over the selected paths; each post/delete preserves what the others set |
| C45 | same regex engine as C01, number of explored alternatives | induction on n, 2^(n-1) lower bound |
| C48 | all of `exc.py` (classes, bases, messages), `str.format` for the fields these use, every raise site with what it passes | the messages are read as pieces, checked for all classes by computation; the scan of `format` over pieces by induction; sites checked against sorts of values by computation, then for all values |
| C49 | the fallback parser, `strptime` for its directives, `isoformat`, both coercions, both property types (DateProperty through the subtype of C35) | a match of the layout's full width takes two digits in every field (width argument), digits by case analysis, arithmetic by lia; the properties by cases |
| C50 | `__repr__` of records and the four collections, CPython's `repr` of text, ints, lists, tuples and dicts; a reader for Python literals and calls; the class calls of C37–C39 with keywords | text lemmas (escapes, numerals, brackets, arguments) composed by one induction over rebuildable values; the constructor by `record_back` of C37 |
| C51 | `reflect` with its default hooks over the declarations of C37–C42, names as parameters, unions of property types, the stack as fuel | well-founded induction over the types used; monotony in fuel; ways by induction, one level of a catalogue at a time; outputs by induction over the positions of C42 |
| C52 | both `__str__` methods, the JSON form of entries and its loading, over the selectors of C01–C10 and the comparison of C27–C31 | the dictionary of headings by induction over the entries; C01, C08 and C10 for the texts; induction over the comparison for the places of entries |
| C53 | the types of `property/types.py` 52–102 as types and coercions of the properties of `PropModel`; `int(text)` as a scanner, floats as `SpecFloat` binary64 | the scanner accepts exactly a grammar; shifting and rounding of `SpecFloat` by an invariant on the discarded bits |
| C54 | `CollectionProperty`, `ListProperty`, `DictProperty`, `SafeCollectionProperty` over an arbitrary class hierarchy; collections of `CollModel` on a heap | case analysis of declarations; invariant over programs, using C21 for each collection |
| C55 | `__getattr__`, `__setattr__`, `__delattr__` of AutoJsonRecord over the attributes of `PropModel` | case analysis; induction on the sequence of assignments |
| C56 | `map_type_union` over an arbitrary mapping; round trip on the visitors of C41 | induction on the tuple; case analysis; C41 |
| C57 | get, put and delete on a heap of objects (`HeapModel`); paths as a relation with the places they pass (`HeapSpec.leads`) | induction on paths and their derivations; invariant of the live loop for the wildcard |
| C58 | `MultiFieldSelector.get`, `delete`, `patch` and `post` on the heap of C57 (`HeapMFSModel`); reachability (`HeapMFSSpec`) | a set of objects closed under holding is not left: invariant of every operation; corollaries by C57 |
| C59 | `==` of `EqModel` (C24) against `diff_iter` of `DiffModel` (C30), with `record_id` of `EqModel` (C25) | by induction on the changes due (`C30_entries`): none is due between values which are `same`; identities by induction on the depth of `record_id` with the normaliser of diff |
| C60 | `record_id` and `==` of `EqModel` | induction on the depth of `record_id`; the loop over the declared types gives the identity by the one class the value fits; `fits` (`IdSpec`) says which records |
| C61 | the visitor with `apply_empty_slots` (`EmptySlotModel`) | induction on the stack; `meets` and `down` (`EmptySlotSpec`) say what the visit comes to; agreement with `VisitModel` when the option is off; termination by well-foundedness of the declarations |
| C62 | `__repr__` of both selector classes; the reader of C50 for Python source (`SelReprModel`) | the text is read back piece by piece (lemmas of C50); induction on the levels of `build` for what is iterated |
| C63 | the composition of C30, C08 and C47: comparing, building the selector, patching (`SyncModel`) | the entries are slots of corresponding records, so no path lies within another; invariant over the patches (slots done are as in b, others as in a, corresponding records stay in place); induction on b for the agreement |
| C64 | visitors, generator objects and the call stack of `map`, `map_record`, `map_collection` as a transition system; hooks do anything (`HookModel`) | invariant over all reachable states: each visitor that has been copied belongs to one generator, its cue is that of the copy plus the key being visited; frames of the stack use the visitors of generators being executed, which nothing else can run; if begun in time, the copied cue is the path |
| C65 | instance dicts of a graph of objects; lazy defaults and observers as programs that read properties (`LookModel`); the specification computes defaults anew at each read (`LookSpec.meaning`) | simulation in both directions between remembering and not remembering, by induction on the depth of dependencies and on programs |
| C66 | the chain of `__init__` methods along the MRO of the type which `TraitModel.declare` selects (`InitModel`); the specification says what the written-out arguments are (`InitSpec.written_out`) | invariants of the registry (distinct MROs that end with Property, the new type leads those of the types which have its trait) over all declarations; induction on the chain |
| C67 | signatures, CPython's binding of arguments, `inspect.getfullargspec`, and the six places which look at or call such functions (`SigModel`); the specification says which parameters must be given and what is passed to whom (`SigSpec`) | `bind_pos`: a call with positional arguments succeeds iff `accepts`; then case analysis on the parameters that must be given; invariant of the caches |
| C68 | class statements with the metaclass's `properties` (`MetaModel`, C34), Python's C3 linearisation (`TraitModel`, C33) and attribute lookup (`ClassModel`); programs are sequences of class statements (`ClassSpec`) | `c3_merge_order`: merging keeps the order of each base's classes; invariant of programs: the first class that has a name lies in the resolution order of a base, and is the first there, too |
| C69 | the marshalling out of `JsonModel` (C37, C38); the specification has documents and the removal of extraneous attributes at any depth (`JsonOutSpec`) | induction over the parts of a value at any depth (`pyv_deep`), with the loops over properties and unknown keys as invariants |
| C70 | `JsonModel` as for C37; the specification says of a property, an item type and a set of classes when values from documents survive (`JsonAgainSpec`: `comes_back`, `steady`) | induction on the nesting of constructor calls that everything loaded satisfies `fits` of C37; then C37's round trip |
| C71 | `DiffModel` as for C27, `TextModel` as for C26; the specification says when options are looser and which objects are meant (`LooserSpec`) | induction on the depth of the comparison: silence under the strict options means equal keys in the same order, slot by slot and item by item, which the looser normalisation keeps; refutations by computation |
| C72 | `AnyHooksModel`: `map`, `map_record`, `map_collection`, `map_prop`, `map_type_union` with all hooks, classes and values as parameters, and a log of calls; the grammar of logs, the translation of hooks and their likeness are the specification (`AnyHooksSpec`) | induction on the depth of the visit for each; C72_default by induction on the size of the value against `VisitModel.visit` |
| C73 | objects with references to lists, and programs of operations on them (`ShareModel`); the specification (`ShareSpec`) knows only paths | every reachable store is an invariant (no two objects with one list) away from the paths; induction on the program |
| C74 | record_id and hash with a count of calls (`IdCostModel`), proved to compute what `EqModel` computes; the specification (`IdCostSpec`) says which values are plainly declared and how many objects they have | induction on the depth of calls; identities of plain values contain no records, so hashing them is free; slots with distinct names are disjoint parts |
| C75 | a heap of objects with references, and the walk of pickle or deepcopy over it with the memo (`GraphModel`); the specification (`GraphSpec`) is an isomorphism of graphs, and paths | induction on the depth of the walk: the memo is a one-to-one assignment, everything new in it is complete when a call returns; a collection met while it is copied would be a cycle whose guard is twice on the stack; the loss by following the cycle through the closed memo |
| C76 | getters as programs over one dict key, run by any number of threads which can be interrupted between any two instructions (`ThreadModel`); the specification (`ThreadSpec`) is about traces of events | invariants of a move: where the value in the slot and those held come from; a program that runs on cannot fail, whether the slot is set or not; who only reads stays one who only reads |
| C77 | heaps of records, lists and dicts with to_json, record_id, repr (with Python's guard for dicts) and == (with its rule for items which are the same object), all by depth (`CycleModel`); the specification (`CycleSpec`) is about paths and cycles | a walk fails at depth n iff there is a path of n steps; a path longer than the number of objects has one of them twice; for repr: every stretch without a dict is short, and each dict is entered once; for ==: a comparison of twins never says no, so it meets the longest path |
| C78 | objects with references to lists, and the lists themselves; `extend` reads its source while it writes (`OwnModel`); the specification (`OwnSpec`) speaks of contents only | invariant of histories: references are different and exist; each step changes one list or adds one |
| C79 | `DiffModel` with `o_recurse`; the specification (`RecurseSpec`) is an inductive relation on pairs of values without identities | as C30: by induction on the fuel, a lemma for each of the functions which says which entries it yields; the parts without collections of records are those of C30 |
| C80 | `DiffModel` with `o_duck`; the specification (`DuckSpec`) says which values are hollow, without the comparison | by induction on the fuel: each of the functions, with one operand missing, yields entries of one kind only, and changes iff the value is not hollow; entries are under the paths given, so those of different slots are apart |
| C81 | `DiffModel` with `o_empty_slots`; the specification (`BlankSpec`) says what of a value is seen and which values are vacant, without the comparison | as C80; the slots as normalised are those seen, so records which look the same give equal runs |
| C82 | `DiffModel` with `o_empty_items` and the `rid` of `EqModel`; the specification says which items are blank by their fields (`ItemsSpec`) and where the kept ones were (`RenumSpec`) | by induction on the fuel of `rid`, the identity is nested-empty iff the key is blank; the keys of a collection without blank items are those with them, and every position looked up is one of a kept item; for lists, by induction on the fuel of the comparison, its result at any place is that at the root with prefixes, and the comparison of records commutes with renaming positions |
| C83 | `_merge_camel_case_names` with `re.sub`, `split` and `join` for what it passes them, over code points; `Record.__str__` over the `rid` of `EqModel`; the words of a name are an inductive relation in `NameSpec` | the two passes (commas in, split at commas) equal one cut, by induction; the cut satisfies the relation and nothing else does; the rest is filtering and concatenation of words |
| C84 | documents, records and collections as objects of a heap; loading and writing allocate; `AliasSpec` defines what an object leads to and which values a class takes as they are | an invariant of the heap (new objects refer to new ones or to values taken as they are), by induction on the fuel; that every such value is reached, by the same induction; writing in two heaps which agree where the value leads gives the same, so later changes elsewhere do not show |
| C85 | typed dicts and Python dicts as objects that refer to dicts in a store; `update` writes while it reads; `MapOwnSpec` says what each operation means for entries | an invariant (references differ, keys differ) by induction on programs; `update` by induction on its keys, also where source and target are one dict |
| C86 | `exc.__repr__` over the printer and the reader of C50; `%r` takes tuples apart | a name at the start of a positional argument is not read as a keyword; then induction over the arguments |

If a claim is false of the model the refutation is a theorem ending in `_refuted`
(witness by computation) and the strongest true restriction is proved beside it.
Theorems covering only part of a claim end in `_partial`.

## 3. Trusted base

* The Coq 8.16.1 kernel and its bytecode VM (`vm_compute` is used for closed examples and
  witnesses).
* The transcription itself: nothing mechanically ties the Gallina model to the Python text.
* `Print Assumptions` per theorem: see section 5 (expected: "Closed under the global
  context" throughout; only the standard library is used).
* `coqchk` also lists seven constants of `Coq.ssr.ssrunder.Under_rel`, a sealed module of the standard
  library which `Setoid` (hence `Lia`) loads; no theorem here depends on them.
* CPython semantics as read from its documentation: `re` priority semantics, dict/list
  semantics, descriptor protocol, `isinstance`.

### Modelled / not modelled (kept current)

See section 4.

## 4. Modelled parts and simplifications

Every definition repeats its source lines and its own simplifications in a comment.

| files | code modelled | left out or simplified |
|---|---|---|
| `Regex`, `RegexCost`, `SelPathModel` | `selector.py`: `_PATH_TOK`, `_MFS_PATH_TOK`, `_fmt_selector_path`, `FieldSelector.from_path`, `path`, escaping; Python's backtracking `re` for the constructs used | Unicode tables are arbitrary functions; `bool` is identified with `int` |
| `FSModel` | `selector.py`: `FieldSelector.__init__`, `__eq__`, `__ne__`, `__lt__` and the functions `total_ordering` adds, `__add__`, `extend`, `add_*`, `__getitem__`, `__len__`, `startswith` | `__hash__` (the identity hash; the finding is recorded); `match` is documented as not implemented |
| `MFSModel` | `selector.py`: `MultiFieldSelector.__init__`, `__iter__`, `__getitem__`, `__contains__`, `path`, `from_path`, `_scan_mfs_path`, `complete_mfs` | set iteration order is an arbitrary permutation; the cached singleton is a value |
| `TreeModel`, `MFSTreeModel` | `selector.py`: `FieldSelector.get`, `get_or_none`, `put`, `post`, `delete`, `_try_index`; `MultiFieldSelector.get`, `delete`, `patch` | objects are trees (no aliasing); what record classes and immutable values do is an arbitrary function of class, name and value (no access to the rest of the object); extra properties of collections; `patch(copy=...)` (no aliasing, so nothing to distinguish) |
| `PropModel` | `property/__init__.py`: `Property.__init__` (checks), `type_safe_value`, `get_default`, `init_prop`, `eager_init`, `__get__`, `slot_is_empty`, the `__set__`/`__delete__` of `SafeProperty`, `LazyProperty`, `ROProperty`, `V1Property` and mixes; `record/__init__.py`: `__init__` | `DiffasProperty`, `aux_props`; `FieldSelector`-valued defaults are programs; world state is threaded through coercions and defaults |
| `PySeq`, `CollModel` | `coll.py`: `Collection.coerce_value`, `tuples_to_coll`, `ListCollection` and `DictCollection` mutators and readers; builtin list/dict operations they delegate to | coercions that change the collection being updated |
| `TextModel` | `diff.py`: `normalize_whitespace`, `normalize_case`, `normalize_unf`, `normalize_text` | the table of blanks, `str.upper` and NFC are arbitrary functions; byte strings |
| `SeqDiffModel` | `diff.py`: `compare_list_iter`, `compare_dict_iter`, `normalize_item`, `normalize_val`, `value_is_empty` | equality of hashable values is an arbitrary equivalence, `repr` an arbitrary function; set orders are arbitrary permutations |
| `FuzzyModel` | `diff.py`: `_nested_falsy`, `_fuzzy_match` | equality and truth of values are arbitrary (truth respecting equality) |
| `ValModel`, `EqModel` | `record/__init__.py`: `__eq__`, `__ne__`, `__pk__`, `__hash__`; `coll.py`: `Collection.__eq__`, `coll_to_tuples`; `identity.py`: `record_id` with selector and normaliser; builtin list, tuple and dict comparison | a record is the table of the values its attributes read as (lazy defaults are not computed during comparison); properties are keyed by their name; equality, hash and iteration of opaque values are arbitrary functions; eager properties of a collection built from a plain list are not initialised |
| `DiffModel` | `diff.py`: `DiffOptions` (normalize_val, normalize_slot, normalize_item, is_filtered, id_args), `compare_record_iter`, `collection_generator`, `compare_collection_iter`, `compare_list_iter`, `compare_dict_iter`, `_nested_empty`, `_diff_iter`, `diff_iter` | `==`, `hash`, `repr` and `record_id` are arbitrary functions (`record_id` is instantiated with `EqModel.rid` in the examples); the entries come as a list, so those yielded before an exception are lost; comparisons which raise are not modelled; sets and dicts compare by `==` (Python tries identity first) |
| `DiffExact`, `DiffEntries`, `DiffOnce`, `DiffExactProps` | no further code: the specification of the entries of a comparison (as `DiffModel`) and its proof | entries with `unchanged` together with fuzzy matching |
| `DiffFilter`, `FilterId`, `DiffFilterProps` | no further code: filters (`DiffOptions.is_filtered`, `id_args`, `record_id` with a selector) as modelled in `DiffModel` and `EqModel` | filters with `duck_type` |
| `TraitModel` | `property/meta.py`: all but `_merge_camel_case_names` (see `NameModel`); the class statements of `property/__init__.py`, `coll.py`, `json.py`, `types.py` as data; `type.__call__` and the C3 linearisation of Python | class names; values of arguments (only whether a default looks like a v1 none); the `__init__` methods; other metaclasses |
| `MetaModel` | `record/meta.py`: `RecordMeta.__new__`; `property/__init__.py`: `bound`, `set_name`, `bind`, `aux_props`, `eager_init` | `type.__new__` (the class object itself, the method resolution order); weak references; a property called `primary_key` |
| `SubModel` | `subtype.py`: `__instancecheck__`, the `__new__` of the class it makes; `property/__init__.py:149` | base types are arbitrary tests; SubtypeOfWhat; the metaclass construction; immediate instances of the subtype class itself |
| `EmptyModel` | `empty.py`: `placeholder`, `itertypes`, `EmptyVal.__getattr__`, `__getitem__`, `__call__`, `__setattr__`, `__setitem__`; `property/__init__.py`: `EmptyAuxProp` | what a class answers (attribute hints, own methods, item type) is a table; names EmptyVal itself has; texts |
| `GenModel` | `coll.py`: `_make_generic`, `list_of`, `dict_of`, `GENERIC_TYPES` | classes are identity, module, name; creating the class (RecordMeta, C34) cannot fail here; `of` is a class, not a tuple |
| `PickleModel` | `record/__init__.py`: `__getnewargs__`, `__getstate__`, `__setstate__`; `coll.py`: `_GenericPickler`, `_Generic.__reduce__`, `Collection.__init__` | pickle itself (what it does with `__reduce__`/`__getstate__` is assumed); sharing and cycles (those are in `GraphModel`); what a collection class coerces or defaults to is arbitrary |
| `AutoModel` | `record/json.py`: `AutoJsonRecord`, `NCAutoJsonRecord` (key conversion, upgrading, `json_data`) | `json.loads` of text and `str` of integers are parameters; the order of a set of keys (attribute access: `AutoAttrModel`) |
| `JsonModel` | `record/json.py` 40–501 except the diff classes; `property/json.py` 34–93; the constructors of records and collections as far as they are called | `json.loads` of text, `str` of integers, sorting of mapping keys and all user functions (coerce, check, json_in, json_out, defaults) are parameters; keys are text; lazy and V1 properties, overridden methods and `json_data` of other classes are not modelled; constructor calls are bounded by fuel, theorems hold for all sufficient fuel |
| `VisitModel` | `visitor.py` 29–119, 155–479, 591–708 | the hooks apply and reverse are parameters, the other hooks the default ones; type unions are in `UnionModel`, apply_empty_slots in `EmptySlotModel`, reflect in `ReflectModel`; StopVisiting and lazy properties are not modelled; None where a record is expected stops the model (the code then visits the attributes of the class) |
| `ExcModel` | `exc.py` 27–495; the raise sites of all files; `empty.py` 141–144 | format specifications, subscripts and nested fields of `str.format` (not used by the messages) stop the model; values, their formatting and attributes are parameters; the sorts of the values passed at each site are read off the code by hand; `__repr__` (67–74) is in `ExcReprModel` |
| `DateModel` | `property/types.py` 27–51, 103–122, 135–167 | dateutil is a parameter; `datetime.strptime`, `isoformat`, `timetuple` and the range checks of date and datetime are transcribed from the CPython library, zones with seconds left out; locale does not matter for these directives |
| `ReprModel` | `record/__init__.py` 103–119, `coll.py` 283–290, 415–421, `record/json.py` 427–429, 499–501 | Python's tokenizer, parser and evaluator for literals and calls, and `unicode_repr`, are transcribed from the language reference and CPython; operators, comprehensions, octal and named escapes are left out (never printed); the printable characters beyond ASCII are a parameter; lazy properties are not modelled |
| `ReflectModel` | `visitor.py` 482–560, 692–758 and 591–689 as run by reflect | filters are not modelled for reflect (the position of an item is its type there); the hooks are the default ones; tuples as item types |
| `DiffStrModel` | `diff.py` 39–61, 63–108, 1020–1079; `record/json.py` 504–516 and what it uses of 64–114, 167–189, 223–229, 345–425; `selector.py` 54–83 as coercion | `json.dumps`/`loads` keep JSON data; the order in which an invalid entry's properties are reported |
| `NumModel` | `property/types.py` 52–102, 124–132; `property/__init__.py` 150–154, 498–564 as far as `isa=` and `coerce=` | `int()`, `float()` and `str()` of Python as described there (`int(text)` as in CPython's `PyLong_FromUnicodeObject`); `float(text)` and `str(float)` are arbitrary |
| `CollPropModel` | `property/coll.py` 26–109; of `coll.py` 86–110 and `property/__init__.py` 202–246, 408–411 what assignment of collections uses | `_make_generic` as established in C37; `of` is a class; coercions of items do not create or change collections |
| `AutoAttrModel` | `record/json.py` 585–602 | the class's other attributes are a parameter and no data descriptors; default methods of lazy properties follow `PropModel` |
| `UnionModel` | `visitor.py` 711–758 | the mapping of the value as each class is a parameter; visiting None (`Property.__get__(None)` gives the property itself) stays outside, as in `VisitModel` |
| `HeapModel` | `selector.py` 32–39, 120–237, 303–359 | as `TreeModel`, but objects are references into a heap; `setattr` and `coerce_value` create objects but change none; lazy properties |
| `HeapMFSModel` | `selector.py` 239–301, 785–904 | as `MFSTreeModel`, on the heap of `HeapModel`; `deepcopy`, constructors and coercions are parameters that create objects but change none |
| `EqDiffSpec` | (none: relates `EqModel` and `DiffModel`) | no new code is modelled |
| `IdSpec` | (none: about `EqModel`) | no new code is modelled |
| `EmptySlotModel` | `visitor.py` 34–82, 155–247, 280–283, 383–479, 591–708 with `apply_empty_slots` | the exception object is None; type unions left out; options and hooks of `VisitModel` |
| `SelReprModel` | `selector.py` 413–415, 771–782, 54–83, 576–583 | source of calls of the two classes only; floats and nested calls as arguments are left out |
| `SyncModel` | `selector.py` 565–612, 870–904 and `diff.py` 974–1071 composed | only records are taken apart (lists and collections are moved as wholes; in the refuted theorems they are objects) |
| `HookModel` | `visitor.py` 85–119, 591–758 | values and types are not represented (every choice of items and properties is possible); iterators of collections run no generators of visits; hooks do not call `push` and `pop` |
| `LookModel` | `property/__init__.py` 202–287, 358–431, `record/__init__.py` 103–133, `identity.py` 72–112, `visitor.py` 642–675 | values are atoms and records; defaults are pure; `record_id` without filters and type unions |
| `InitModel` | `property/__init__.py` 52–157 (argument names), 332–349, 437–452, 477–483, 498–564, `property/json.py` 38–69 | what each `__init__` takes, supplies and passes on; not the checks of values; not `property/coll.py` |
| `SigModel` | `property/__init__.py` 121–172, 248–257, 477–492, `diff.py` 288–301, `record/json.py` 162–191 | binding of arguments as in CPython 3.11 `initialize_locals`; annotations and the warning are left out; calls of builtins without signature are not modelled |
| `ClassModel` | `record/meta.py` 27–99 with `type.__new__` | attributes are not changed after the class statement; a plain class has no attribute `properties`; metaclasses other than RecordMeta and type are left out |
| `JsonOutSpec` | (none: about `JsonModel`) | no new code is modelled |
| `JsonAgainSpec` | (none: about `JsonModel`) | no new code is modelled |
| `LooserSpec` | (none: about `DiffModel` and `TextModel`) | no new code is modelled |
| `AnyHooksModel`, `AnyHooksVisit` | `visitor.py` 29–119, 577–758; the default hooks 195–359 as data | hooks have no state and read generators once, to the end, before anything else; an exception from reading an attribute is wrapped by a parameter |
| `ShareModel` | `selector.py` 54–118, 361–379, 413–457; `copy.copy`, `copy.deepcopy` and `pickle` for these objects | nobody else touches `selectors`; the truth value of elements does not change; slices have step 1; hashes of different objects are different (`object.__hash__`) |
| `IdCostModel` | `identity.py` 23–112 and `record/__init__.py` 138–150 again, with a count of the calls of record_id | as `EqModel`; other work (sorting, len) is not counted |
| `GraphModel` | `record/__init__.py` 69–83 and `coll.py` 454–472 with Python's `pickle` and `copy.deepcopy` | writing and reading a pickle are one walk; containers have at most 1000 items; keys are atoms; generic collections have no other properties and hold items of their type |
| `ThreadModel` | `property/__init__.py` 277–287, 358–369, 390–397, 410–431, `coll.py` 475–503 | one key of one dict; operations on it are atomic; defaults do not use the slot themselves and do not raise |
| `CycleModel` | `record/__init__.py` 103–132, `coll.py` 115–124, 283–290, 415–421, `record/json.py` 192–264, `identity.py` 23–112 | which objects are visited, and how deep, not what is made of their atoms (C37, C50, C24, C60); properties in the order of declaration |
| `OwnModel` | `coll.py` 101–103, 134–149, 193–200, 318–351, 393, 400, 423–427, 470–472, `record/__init__.py` 75–83 | one item type; slices with step 1 and bounds from 0; the copied or pickled collection has no other properties |
| `RecurseSpec` | (none: about `DiffModel`, which has diff.py 669–693) | no new code is modelled |
| `DuckSpec` | (none: about `DiffModel`, which has diff.py 404–483 and 1005–1017) | no new code is modelled |
| `BlankSpec` | (none: about `DiffModel`, which has diff.py 239–301 and 404–483) | no new code is modelled |
| `ItemsSpec`, `RenumSpec` | (none: about `DiffModel` and `EqModel`, which have diff.py 539–543, 650–667 and identity.py 23–112) | no new code is modelled |
| `NameModel` | `property/meta.py` 116–128; `record/__init__.py` 85–101, 138–145 | the class name is given; `repr` of a key is a function; which non-ASCII characters are digits is a parameter |
| `AliasModel` | `record/json.py` 40–49, 64–118, 192–264, 282–336, 381–425, 454–497; `coll.py` 101–103; with the identity of objects | Json classes only, without `json_in`, `json_out`, coercions, defaults, keyword arguments and properties of collections; `copy.deepcopy` without memo; errors and running out of fuel are one |
| `MapOwnModel` | `coll.py` 101–103, 151–158, 196–200, 203–281, 470–472; `record/__init__.py` 75–83; with the identity of objects | one item type; keys compare like their identity; no keyword arguments of `update`; no live iterators; errors without their texts |
| `ExcReprModel` | `exc.py` 36–38, 67–74; what Python reads from it | as `ReprModel`; the prefix `exc.` stands for the module; keywords of Python count as names; that the constructor accepts the arguments again is C48 |

Common simplifications:
* Object graphs are trees (no aliasing, no cycles) except in `HeapModel`, `CollPropModel`: an in-place change of a
  sub-object is a functional update along its path. C57 states what holds of selectors when objects are shared.
* `bool`/`float` are not distinguished from opaque hashable scalars; Python's `True == 1` is
  not modelled.
* Warnings, docstrings, exception message texts, `__repr__` formatting (except where a claim is
  about text) are not modelled.
* Memory/time limits and the recursion limit appear only as the fuel outcome.

Not modelled at all: `setup`, test files, thread interleavings other than those of C76 (the
library has no concurrency control of its own).

## 5. Print Assumptions

`Print Assumptions` answers "Closed under the global context" for each of the following
(no axioms at all, not even of the standard library):

* `SelProps`: `C01_fs_path_round_trip`, `C01_negative_index_refuted`, `C01_empty_key_refuted`, `C01_quote_bracket_refuted`, `C01_trailing_newline_refuted`, `C02_lt_is_lexicographic`, `C02_strict_order`, `C02_derived`, `C02_sorted_indices_increase`, `C03_add_is_fresh_concatenation`, `C03_add_assoc`, `C03_neutral_len_slices`, `C03_startswith`, `C45_key_parsing_exponential`, `C45_cost_model_adequate`, `C46_fs_constructor`, `C46_rejects_every_invalid_element_refuted`
* `MFSProps`: `C08_denotes_union`, `C08_value_error_exactly_on_mixed_level`, `C08_iteration_denotes_same_set`, `C08_depends_only_on_path_set`, `C08_rebuild`, `C09_residual`, `C09_composes`, `C09_none_iff_nothing_below`, `C09_complete_is_absorbing`, `C09_bare_key`, `C10_mfs_path_round_trip`, `C10_empty_selector_refuted`
* `PropProps`: `C13_type_safe`, `C13_reads`, `C14_required_present`, `C14_constructor_rejects`, `C15_failed_write_changes_nothing`, `C15_write_frame`, `C16_read_only`, `C16_raises`, `C17_set_slot_read`, `C17_read_stores`, `C17_computed_once`, `C17_unset_read_calls`, `C17_function_called_once`, `C17_set_slot_never_called`, `C17_bad_default_not_stored`, `C18_unset_reads_none`, `C18_assign_none`, `C18_other_rejected`, `C19_reassign_own_value`, `C20_exact`, `C20_unknown_rejected`, `C20_ambiguous_rejected`, `C20_dict_or_keywords`, `C20_order_independent`, `C14_lazy_required_refuted`, `C17_lazy_without_default_refuted`, `C18_unset_none_keyerror`
* `CollProps`: `C21_list_items_typed`, `C22_same_as_builtin`, `C22_insert_spreads`, `C22_pop_far_below`, `C22_index_divergence`, `C22_failure_atomic`, `C22_refused_item_raises`, `C22_from_sequence`, `C22_from_mapping`, `C22_add`, `C23_refines_finite_map`, `C23_failing_update`, `C23_key_order`, `C21_dict_values_typed`, `C21_bad_coercion_refuted`
* `TreeProps`: `C04_part_ways_complete`, `C04_put_get`, `C04_put_get_same`, `C04_put_frame`, `C04_failed_put_changes_nothing`, `C04_wildcard_put`, `C04_put_all_items`, `C05_wildcard_get`, `C05_other_exceptions_escape`, `C05_path_to_wildcard`, `C05_get_or_none`, `C05_dict_wildcard_sees_keys`, `C06_deleted_is_gone`, `C06_list_item`, `C06_delete_all_items`, `C06_delete_frame`, `C06_unset_is_noop`, `C06_failed_delete_changes_nothing`, `C06_wildcard_delete`, `C07_post_get`, `C07_post_frame`, `C07_list_growth`, `C07_out_of_order`, `C07_wildcard_post_refuted`, `C04_negative_index_alias_refuted`, `C06_wildcard_not_atomic_refuted`, `C07_missing_dict_key_refuted`, `C07_missing_dict_key_clobbers_refuted`
* `MFSTreeProps`: `C11_selected_is_kept`, `C11_above_is_there`, `C11_nothing_else`, `C11_complete_copies`, `C11_list_indices`, `C12_missing_raises_unchanged`, `C12_removes_exactly`, `C12_force`, `C47_patch`, `C47_frame`, `C47_unreadable_source`, `C11_list_index_refuted`, `C11_defaults_refuted`, `C11_below_plain_value_refuted`, `C12_list_items_refuted`, `C12_list_items_midway_refuted`, `C12_required_midway_refuted`, `C12_force_dict_refuted`
* `TextProps`: `C26_words_unique`, `C26_normal_form`, `C26_normalised_reads_same`, `C26_alike_iff_same_words`, `C26_idempotent`, `C26_no_stray_blanks`, `C26_case_ignored`, `C26_case_kept`, `C26_nothing_ignored`, `C26_same_words_alike`
* `SeqDiffProps`: `C28_entries`, `C28_no_duplicates`, `C28_empty_iff_same_multiset`, `C28_positions_once`, `C28_lonely_is_surplus`, `C29_simple`, `C28_lengths`, `C28_repr_confusion_refuted`
* `FuzzyProps`: `C32_pairs_share`, `C32_each_once`, `C32_best_first`, `C32_maximal`
* `EqProps`: `C24_meaning`, `C24_reflexive`, `C24_symmetric`, `C24_terminates`, `C24_transitive`, `C24_negation`, `C24_false_across_types`, `C24_extraneous_ignored`, `C24_collection_props_ignored`, `C24_transitive_refuted`, `C25_equal_hash`, `C25_equal_id`, `C25_containers`, `C25_record_with_container`, `C25_dict_order_refuted`, `C25_extraneous_key_refuted`, `C25_empty_collection_unhashable`
* `DiffProps`: `C27_only_unchanged`, `C27_empty`, `C27_succeeds`, `C29_swap`, `C29_order_of_sets`, `C27_nan_refuted`, `C29_duck_refuted`, `C29_set_order_refuted`, `C29_swap_set_order_refuted`
* `DiffExactProps`: `C30_empty_iff_agree`, `C30_entries`, `C30_paths`, `C30_no_path_twice`, `C30_fuzzy_refuted`, `C30_mixed_refuted`, `C30_no_change_refuted`, `C30_subtype_refuted`
* `DiffFilterProps`: `C31_only_selected`, `C31_no_influence`, `C31_exactly_selected`, `C31_identity_no_influence`, `C31_identity_by_key`, `C31_identity_whole`, `C31_list_items_refuted`, `C31_one_item_refuted`, `C31_nested_identity_refuted`, `C31_empty_identity_refuted`
* `TraitProps`: `C33_composed`, `C33_untouched`, `C33_terminates`, `C33_completes`, `C33_has`, `C33_again`, `C33_property_call`, `C33_call`, `C33_history_refuted`, `C33_clash_refuted`, `C33_uninitialised_refuted`, `C33_unsafe_refuted`, `C33_ambiguous_refuted`
* `MetaProps`: `C34_properties`, `C34_accepted`, `C34_rejected`, `C34_primary_key`, `C34_eager`, `C34_sorted`, `C34_bound`, `C34_invariant`, `C34_accessors`, `C34_redeclared`, `C34_diamond_refuted`, `C34_key_inherited_refuted`, `C34_own_name_refuted`, `C34_accessor_clobbers_refuted`, `C34_hidden_refuted`
* `SubProps`: `C35_isinstance`, `C35_parts`, `C35_unchanged`, `C35_result`, `C35_nonconforming`, `C35_idempotent`, `C35_property`, `C35_property_conforming`, `C35_none_at_construction`, `C35_none_on_assignment`, `C35_no_coercion`, `C35_slots`, `C35_coercion_inherited_refuted`
* `EmptyProps`: `C36_itertypes`, `C36_itertypes_once`, `C36_persistent`, `C36_same_object`, `C36_kept`, `C36_any_absorbs`, `C36_any`, `C36_attribute`, `C36_item`, `C36_call`, `C36_repeatable`, `C36_not_writable`, `C36_accessor`, `C36_set_of_types_refuted`, `C36_iteration_refuted`, `C36_slice_refuted`, `C36_inherited_refuted`, `C36_writable_refuted`, `C36_lazy_masked_refuted`
* `GenProps`: `C44_same_type`, `C44_items`, `C44_collection`, `C44_distinct`, `C44_rejected`, `C44_same_name_rejected`, `C44_granted`, `C44_names`, `C44_same_named_class_refuted`, `C44_lists_of_lists_refuted`, `C44_missing_module_refuted`, `C44_dotted_refuted`
* `PickleProps`: `C43_records`, `C43_round_trip`, `C43_generic`, `C43_only_items_matter`, `C43_unregistered`, `C43_python2_names`, `C43_extra_property_refuted`, `C43_extra_default_refuted`, `C43_required_refuted`, `C43_subclass_refuted`, `C43_items_coerced_refuted`
* `AutoProps`: `C40_round_trip`, `C40_injective`, `C40_documents`, `C40_nc_documents`, `C40_collision_refuted`, `C40_nested_object_lost`, `C40_nested_refuted`, `C40_mixed_list_refuted`
* `JsonProps`: `C37_round_trip`, `C37_text`, `C37_default_output`, `C37_excluded`, `C38_loaded`, `C38_marshalled`, `C38_document`, `C39_exact`, `C39_position`, `C37_big_int_refuted`, `C37_plain_record_refuted`, `C37_null_refuted`, `C37_json_in_record_refuted`, `C37_attribute_error_refuted`, `C37_same_key_refuted`, `C38_to_json_refuted`, `C39_type_error_refuted`, `C39_plain_record_refuted`
* `VisitProps`: `C41_round_trip`, `C41_anywhere`, `C41_injective`, `C42_present`, `C42_nested`, `C42_only_shown`, `C42_selected`, `C42_no_influence`, `C42_positions`, `C42_all_visited`, `C41_none_refuted`, `C41_none_item_refuted`, `C41_subclass_refuted`, `C41_untyped_refuted`, `C41_no_properties_refuted`, `C42_items_shift_refuted`, `C42_items_unfiltered_refuted`, `C42_empty_filter_refuted`, `C42_cast_positions_refuted`
* `ExcProps`: `C48_text`, `C48_sites`, `C48_attributes`, `C48_missing`, `C48_families`, `C48_copy`, `C48_copy_lost`, `C48_undefined_refuted`, `C48_unpack_refuted`, `C48_union_refuted`, `C48_text_lost_refuted`, `C48_name_refuted`, `C48_copy_refuted`
* `DateProps`: `C49_date_only`, `C49_date`, `C49_datetime`, `C49_calendar`, `C49_exact`, `C49_date_text`, `C49_datetime_text`, `C49_datetime_refused`, `C49_round_trip`, `C49_short_refuted`, `C49_utc_refuted`
* `ReprProps`: `C50_round_trip`, `C50_injective`, `C50_text`, `C50_record_text`, `C50_jsondict_refuted`, `C50_unsafe_refuted`, `C50_deleted_refuted`, `C50_json_data_refuted`
* `ReflectProps`: `C51_complete`, `C51_only`, `C51_terminates`, `C51_recursive_refuted`, `C51_covers_output`, `C51_union_refuted`, `C51_undeclared_refuted`
* `DiffStrProps`: `C52_summary`, `C52_error`, `C52_prints`, `C52_below`, `C52_entry_text`, `C52_json_round_trip`, `C52_json_injective`, `C52_moved_refuted`, `C52_hidden_refuted`, `C52_none_key_refuted`, `C52_reloaded_refuted`, `C52_path_text_refuted`
* `NumProps`: `C53_integer_text`, `C53_number_text`, `C53_text_round_trip`, `C53_kept`, `C53_float_of_int`, `C53_float_round_trip`, `C53_int_of_float`, `C53_typed`, `C53_unicode`, `C53_string_refuted`, `C53_truncates_refuted`, `C53_float_refuted`
* `CollPropProps`: `C54_collection_declared`, `C54_declared`, `C54_declared_type`, `C54_converted_once`, `C54_same_object`, `C54_fresh`, `C54_holds`, `C54_isa_alone_refuted`, `C54_narrower_of_refuted`, `C54_replaced_itemtype_refuted`, `C54_typed_dict_lost_refuted`, `C54_falsy_is_empty`
* `AutoAttrProps`: `C55_read`, `C55_missing`, `C55_read_declared`, `C55_unset`, `C55_not_consulted`, `C55_assign`, `C55_never_changes`, `C55_results`, `C55_assigned_refuted`, `C55_shadowed_refuted`
* `UnionProps`: `C56_first`, `C56_error`, `C56_applied`, `C56_last`, `C56_cases`, `C56_one_class`, `C56_order`, `C56_round_trip`, `C56_subclass_refuted`, `C56_cast_refuted`, `C56_cast_text_refuted`, `C56_visit_text_refuted`, `C56_lost_error_refuted`
* `HeapProps`: `C57_get_object`, `C57_get_changes_nothing`, `C57_put`, `C57_put_raised`, `C57_put_get`, `C57_delete`, `C57_delete_raised`, `C57_put_all_share`, `C57_put_get_refuted`
* `HeapMFSProps`: `C58_get`, `C58_copy_changed`, `C58_original_changed`, `C58_patch`, `C58_patch_source`, `C58_delete`, `C58_patch_shares`, `C58_patch_source_refuted`, `C58_get_sharing_refuted`, `C58_get_default_refuted`
* `EqDiffProps`: `C59_no_change`, `C59_no_difference`, `C59_alike`, `C59_own_property_refuted`, `C59_dict_in_list_refuted`, `C59_same_key_refuted`, `C59_extraneous_key_refuted`, `C59_order_refuted`, `C59_keys_refuted`, `C59_plain_keys_refuted`, `C59_space_refuted`
* `IdProps`: `C60_identity`, `C60_primary_key`, `C60_none_refuted`, `C60_subclass_refuted`, `C60_union_refuted`, `C60_dict_refuted`, `C60_item_types_refuted`, `C60_other_fields_refuted`
* `EmptySlotProps`: `C61_off`, `C61_cast_off`, `C61_called`, `C61_only`, `C61_placed`, `C61_same`, `C61_default`, `C61_ends`, `C61_endless`, `C61_cast_same`, `C61_cast_absent`, `C61_not_called_refuted`, `C61_phantom_refuted`, `C61_collection_refuted`, `C61_cyclic_refuted`, `C61_cast_refuted`
* `SelReprProps`: `C62_field_selector`, `C62_multi_field_selector`, `C62_injective`, `C62_multi_injective`, `C62_iteration`
* `SyncProps`: `C63_agree_afterwards`, `C63_no_difference_left`, `C63_exactly_the_reported`, `C63_removed_items_refuted`, `C63_removed_last_item_refuted`, `C63_moved_records_refuted`
* `HookProps`: `C64_position`, `C64_filter`, `C64_kept`, `C64_own_visitor`, `C64_pop`, `C64_late_refuted`
* `LookProps`: `C65_changes`, `C65_uncached`, `C65_same`, `C65_one_answer`, `C65_library`, `C65_repr_refuted`, `C65_stale_refuted`
* `InitProps`: `C66_given`, `C66_nothing_else`, `C66_same_type`, `C66_as_written`, `C66_late`, `C66_trait_name_refuted`, `C66_default_refuted`
* `SigProps`: `C67_call`, `C67_default`, `C67_compare`, `C67_bound`, `C67_bound_refuted`, `C67_keyword_only_refuted`, `C67_compare_value_refuted`, `C67_json_data`, `C67_json_caches`, `C67_json_refuted`, `C67_json_caches_refuted`
* `ClassProps`: `C68_sound`, `C68_complete`, `C68_inherited`, `C68_tidy`, `C68_mixin_refuted`, `C68_mixin_hides_refuted`, `C68_sorted_name_refuted`, `C68_accessor_refuted`
* `JsonOutProps`: `C69_document`, `C69_again`, `C69_extraneous`, `C69_json_out_refuted`, `C69_json_out_extraneous_refuted`
* `JsonAgainProps`: `C70_fits`, `C70_again`, `C70_plain_prop`, `C70_typed_prop`, `C70_default_refuted`
* `LooserProps`: `C71_silent`, `C71_attribute`, `C71_text`, `C71_collection_refuted`, `C71_count_refuted`, `C71_repr_refuted`
* `AnyHooksProps`: `C72_stop`, `C72_calls`, `C72_once`, `C72_errors`, `C72_unread`, `C72_fusion`, `C72_default`, `C72_collect_none_refuted`
* `ShareProps`: `C73_own`, `C73_determined`, `C73_grows`, `C73_valid`, `C73_copy_shares`, `C73_copy_refuted`, `C73_equal`, `C73_set`, `C73_set_refuted`
* `IdCostProps`: `C74_counted`, `C74_once`, `C74_hash_once`, `C74_union_refuted`, `C74_object_refuted`
* `GraphProps`: `C75_same`, `C75_no_cycle`, `C75_from_record`, `C75_lost`, `C75_pickle_refuted`, `C75_deepcopy_refuted`
* `ThreadProps`: `C76_honest`, `C76_no_error`, `C76_only_attribute_error`, `C76_settled`, `C76_first_alone`, `C76_assigned`, `C76_twice_refuted`, `C76_two_types_refuted`, `C76_lost_assignment_refuted`, `C76_key_error_refuted`
* `CycleProps`: `C77_json_depth`, `C77_hash_depth`, `C77_json`, `C77_hash`, `C77_repr`, `C77_eq_ends`, `C77_eq_copy`, `C77_order_refuted`, `C77_shared_exponential`
* `OwnProps`: `C78_others`, `C78_effect`, `C78_made`, `C78_kept`, `C78_failed`, `C78_extend_other`, `C78_extend_self`, `C78_copy_shares`, `C78_extend_self_refuted`, `C78_copy_refuted`
* `RecurseProps`: `C79_entries`, `C79_places`, `C79_identities`, `C79_recurse_refuted`
* `DuckProps`: `C80_one_sided`, `C80_other_side`, `C80_base_properties`, `C80_slot`, `C80_silent`, `C80_blind_refuted`
* `BlankProps`: `C81_one_sided`, `C81_other_side`, `C81_slot`, `C81_same`, `C81_unset`, `C81_more_refuted`
* `ItemsProps`: `C82_identity`, `C82_dict_absent`, `C82_dict_alone`, `C82_list_unmentioned`, `C82_compared_refuted`
* `NameProps`: `C83_words`, `C83_merge`, `C83_same`, `C83_again`, `C83_distinct_refuted`, `C83_str`, `C83_str_fails`, `C83_str_key`, `C83_str_total_refuted`, `C83_str_distinct_refuted`
* `AliasProps`: `C84_load`, `C84_apart`, `C84_dump`, `C84_later`, `C84_document_later`, `C84_written_later`, `C84_independent_refuted`
* `MapOwnProps`: `C85_others`, `C85_effect`, `C85_keys`, `C85_made`, `C85_kept`, `C85_failed`, `C85_failed_update`, `C85_update_self`, `C85_copy_shares`, `C85_make_refuted`, `C85_copy_refuted`
* `ExcReprProps`: `C86_round_trip`, `C86_injective`, `C86_classes`, `C86_tuple_fails`, `C86_value_fails`, `C86_tuple_refuted`, `C86_keyword_refuted`
* `CollSlotProps`: `C80_list_slot`, `C81_list_slot`, `C80_dict_slot_refuted`
* `RenumProps`: `C82_list_absent`, `C82_place`, `C82_moved_refuted`

## 6. Findings: places where the code disagrees with what a user would expect

Each is a theorem (mostly `…_refuted`, by a concrete witness) about the model.

Selectors as text and values
* C01: path text does not read back for negative indices, the empty key, keys containing a quote
  followed by a bracket, and keys ending in a newline; see the `C01_*_refuted` theorems.
* C03: `startswith` raises `IndexError` when the prefix is longer than the selector.
* C08: the empty path together with any name makes the constructor raise `ValueError`; a
  trailing wildcard matches the collection itself.
* C09: subscripting by a bare key below a wildcard gives None.
* C10: `MultiFieldSelector()` (selects nothing) prints `()`, which reads back as "everything".
* C45: parsing `['` + n characters takes at least 2^(n-1) steps.
* C46: falsy invalid elements (`0.0`, `()`, `b''`) are accepted.
* Equal selectors have different (identity) hashes, although `__eq__` is defined (`selector.py:370`
  returns `object`'s hash).

Selectors on objects
* put/delete/post with the empty selector raise `IndexError` instead of a selector exception.
* A missing dict key raises plain `KeyError` from `get` and even from `get_or_none`; a text
  selector on a list raises plain `TypeError`.
* A wildcard over a dict visits the keys (C05_dict_wildcard_sees_keys); put and delete through it do nothing
  useful.
* C04: `[-1]` and `[n-1]` alias, so "different path" is not "different place".
* C06: wildcard delete is not atomic for exceptions that are no selector exceptions.
* C07: post with a wildcard raises `TypeError`; post through a missing dict key creates the entry and then continues
  in the dict itself, storing in the wrong place or clobbering.
* C11: `MultiFieldSelector.get` below a plain value replaces it by an empty one of its type; None is
  dropped; list indices are compacted; constructor defaults show in unselected fields.
* C12: `MultiFieldSelector.delete` of several list indices removes the wrong items or fails halfway;
  required attributes make it fail halfway; `force=True` still raises for missing dict keys.

Properties and records
* C14: `required` is not enforced on lazy properties.
* C17: a lazy property without default and type reads as the private marker object.
* C18: assigning None to an unset v1 attribute raises `KeyError`; `V1Property.slot_is_empty` raises
  `TypeError` on properties which are not `v1_upgraded`.

Collections
* C21: a coerced item is never checked against the item type.
* C22: `insert` iterates over its argument and inserts every item; `pop(i)` with i < -len pops the first item; `index(x, i, j)`
  with j > len raises `IndexError`; `index`/`remove` of an absent tuple raises `TypeError` from the message
  formatting; `x in coll` raises for an x that cannot be coerced.
* C23: `update` coerces every value twice; a `DictCollection` built from a set or None is silently
  empty.

Diff
* C28: items that are not hashable are compared through their `repr`, so `["[1]"]` and `[[1]]` are
  reported as the same (`C28_repr_confusion_refuted`).

### Equality and hashing

* **C24**: `==` is not transitive across plain and typed collections: `IntList([1]) == [1]` and
  `[1] == FloatList([1.0])` but `IntList([1]) != FloatList([1.0])` (`coll.py:119-124`).
  `C24_transitive_refuted`.
* **C24**: two collections of different classes with the same item type are equal, whatever
  their other properties: a record class does not get that treatment. `C24_collection_props_ignored`.
* **C25**: records holding dict collections with the same items, filled in different order, are
  equal but hash differently (`identity.py:56`, where a FIXME says as much).
  `C25_dict_order_refuted`.
* **C25**: a primary key may name an extraneous property; then equal records hash differently.
  `C25_extraneous_key_refuted`.
* **C25**: a record whose key has a slot typed as a list collection cannot be hashed (nor its
  `__pk__` or `str()` computed) while that collection is empty: `val_pk or val`
  (`identity.py:98`) falls back from the empty tuple to the collection, which is not hashable,
  and `KeyHashError` is raised. `C25_empty_collection_unhashable`.

### Comparison of objects

* **C27**: a slot holding a value not equal to itself (NaN) is MODIFIED in `diff(a, a)`.
  `C27_nan_refuted`.
* **C29**: with `duck_type` only the properties of the base are compared, so exchanging the
  operands compares others. `C29_duck_refuted`.
* **C29**: fuzzy matching (on by default) breaks ties by the iteration order of sets of tuples,
  hence by string hashes: the same two lists can be reported differently by two runs.
  `C29_set_order_refuted`, `C29_swap_set_order_refuted`. Within one process (same order for
  the same history) the claim holds.
* **C30**: with fuzzy matching a removed and an added item that agree in all but an extraneous
  primary key are matched and nothing is reported, though the two lists differ.
  `C30_fuzzy_refuted`.
* **C30**: an item of a record dict whose key is also the name of a property of the dict class
  is reported under the same path as that property. `C30_mixed_refuted`.
* **C30**: with `unchanged=True` an item that has the same primary key on both sides but differs
  inside is reported as NO_CHANGE besides the difference. `C30_no_change_refuted`.
* **C30**: items of different record types with equal identity make the comparison raise
  TypeError rather than report a difference. `C30_subtype_refuted`.
* **C31**: a filter such as `labels[0]` does not restrict the comparison of a plain list: changes
  of `labels[1]` are reported (`compare_list_iter` never looks at the filter).
  `C31_list_items_refuted`.
* **C31**: a filter such as `users[0].name` compares nothing: an item takes part only if the filter
  contains it as a whole (`diff.py:653-655`: `fs_a + [k] in compare_filter`).
  `C31_one_item_refuted`.
* **C31**: with a filter such as `users[*].plans[*].name` the identity of a user takes in every slot
  of its plans, since `record_id` looks up `selector[k]` for the key `k` of a plan, which is not
  found under the wildcard and yields no selector at all (`identity.py:60-62`; the test next to
  it, `selector[(k,)]`, does honour the wildcard). So users whose plans differ in an unselected
  slot are reported as removed and added. `C31_nested_identity_refuted`.
* **C31**: if nothing of a sub record counts towards the identity under the filter, `val_pk or val`
  (`identity.py:100`) takes the whole sub record instead. `C31_empty_identity_refuted`.

### Property types

* **C33**: `create_property_type_from_traits` mixes in `PROPERTY_TYPES[other]` (`meta.py:200`), where
  `other` is whatever the search loop ended with, instead of `mix_in`. Whenever no single stock
  type supplies all missing traits, the wrong type is composed and filed under the wrong key of
  the local table, and the next round is a KeyError. `StringProperty(compare_as=f)` as the first
  string property of a program fails like this, and works after a plain `StringProperty()`;
  likewise `DateProperty(lazy=True)` and `DateProperty()`. `C33_history_refuted`.
* **C33**: the loop goes on with other bases of the same length after the wanted type has been made;
  the first `ListProperty(of=X, lazy=True)` of a program raises PropertyTypeClash, the second
  works. `C33_clash_refuted`.
* **C33**: `LazySafeProperty(json_name=...)` gets an object that is not a LazySafeProperty, so Python
  does not run `__init__` and the property is unusable. `C33_uninitialised_refuted`.
* **C33**: `traits=["unsafe"]` has no effect on `ListProperty`, `DictProperty`, `UnicodeProperty`: the
  `__new__` of the base class runs with the chosen type and adds `safe` again.
  `C33_unsafe_refuted`.
* **C33**: an ambiguous argument raises AttributeError (a tuple is asked for its `__name__`,
  `meta.py:79`) instead of AmbiguousPropertyTraitArg. `C33_ambiguous_refuted`.

### Record types

* **C34**: two record types that inherit one property from a common base cannot be combined: the
  very same property object counts as a clash. `C34_diamond_refuted`.
* **C34**: `primary_key` is taken from the class body only and is the empty tuple otherwise, so a
  subclass compares and hashes by all of its values though its base has a key.
  `C34_key_inherited_refuted`.
* **C34**: `b = Other.a` in a class body, or `x = y = Property()`, lists a property under a name that
  is not its `name`; slots are stored under the latter. `C34_own_name_refuted`.
* **C34**: a property `x` adds the accessor `x0` to the class, over a property `x0` declared in the same
  body, which stays in `properties` but has no descriptor. `C34_accessor_clobbers_refuted`.
* **C34**: an attribute that is no property, such as a method, under the name of an inherited property
  leaves the property in `properties`. `C34_hidden_refuted`.
* **C34**: a string in `primary_key` that names no property raises KeyError, an object that is none raises
  PropertiesNotKnown (`ex_unknown_name`, `ex_unknown_prop`).

### Subtypes

* **C35**: a subtype of a subtype does not inherit the coercion of the latter
  (`C35_coercion_inherited_refuted`).

### Empty placeholders

* **C36**: "each set of types gets a single, persistent object" (docstring) is not so: tuples that differ in
  order or repetition have different objects (`C36_set_of_types_refuted`).
* **C36**: the placeholder of a collection has an item under every index and no `__iter__`, so
  `for x in record.friends0` never ends when the attribute is not set (`C36_iteration_refuted`).
* **C36**: slicing gives the placeholder itself even for types without subscription
  (`C36_slice_refuted`).
* **C36**: only methods in the class's own `__dict__` are seen: the placeholder for a class that inherits
  `__call__`, `__getitem__` or `__getattr__` raises (`C36_inherited_refuted`).
* **C36**: the shared objects' fields can be assigned from outside (`C36_writable_refuted`).
* **C36**: `x0` of a lazy attribute whose default raises AttributeError reads as empty
  (`C36_lazy_masked_refuted`).

### Generic collection types and pickling

* **C44**: only `coll.__name__` is in the key and only the item types are compared, so two collection
  classes of the same name are confused: the second request gets the type of the first
  (`C44_same_named_class_refuted`).
* **C44**: generic types are created inside `RecordMeta.__new__`, hence live in module
  `normalize.record.meta`; two item types of the same name from different modules have lists but not both
  lists of lists (`C44_lists_of_lists_refuted`).
* **C44**: with the item type's module missing in `sys.modules` the first request raises KeyError and the
  same request again succeeds (`C44_missing_module_refuted`).
* **C44**: module `a`, class `b.Foo` and module `a.b`, class `Foo` conflict (`C44_dotted_refuted`).
* **C43**: a generic collection loses its extra properties (`C43_extra_property_refuted`), gets defaults
  instead (`C43_extra_default_refuted`), or cannot be loaded when one is required (`C43_required_refuted`).
* **C43**: an instance of a subclass of a generic collection is loaded as the base class
  (`C43_subclass_refuted`); its items are coerced again (`C43_items_coerced_refuted`); a process that has
  not created the type cannot load it (`C43_unregistered`).

### Automatic JSON records

* **C40**: `fooBar` and `foo_bar` collide; one of the values is lost (`C40_collision_refuted`).
* **C40**: an object directly inside an object is emitted as `{}` by `json_data()`: it calls `to_json`, not
  `_json_data`, on the values, and `to_json` of a record leaves the unknown keys out
  (`C40_nested_object_lost`, for every document; `C40_nested_refuted` for the non-converting variant).
* **C40**: a list starting with an object must contain objects only: `[{}, 5]` cannot be loaded, and in
  `[{}, null]` the null becomes an object (`C40_mixed_list_refuted`).

### JSON marshalling

* **C37**: `_json_to_value_initializer` asks `isinstance(proptype, Record)` of the class itself, which never
  holds; a nested record of a plain class is therefore loaded by attribute names, though marshalled under
  its JSON names: its own output is refused (`C37_plain_record_refuted`).
* **C37**: integers beyond 2**50 come back as text (`C37_big_int_refuted`); null where a record is wanted
  becomes an empty record (`C37_null_refuted`).
* **C37**: a `json_in` function that returns a finished record of the declared JSON class (as the
  documentation suggests by "can recurse into from_json") makes loading fail: the record is passed to
  the class as if it were JSON data (`C37_json_in_record_refuted`).
* **C37**: AttributeError in a `json_out` function silently drops the property
  (`C37_attribute_error_refuted`); two properties with one JSON key make every document with that key
  fail with KeyError (`C37_same_key_refuted`).
* **C38**: `to_json(record, extraneous=True)` never emits the unknown keys of the record itself, contrary to
  the class documentation ("calling `.json_data()` or `to_json()`") (`C38_to_json_refuted`).
* **C39**: a value of the wrong type is reported at the record it is in, without its key
  (`C39_type_error_refuted`); inside a plain record even that record's key is missing
  (`C39_plain_record_refuted`).

### Visitors

* **C41**: None in a slot is dropped by visit and the slot is unset after cast (`C41_none_refuted`); None among
  the items of a list is dropped, too, and the list comes back shorter (`C41_none_item_refuted`).
* **C41**: a record of a subclass of the declared class is visited and cast as the declared class: what only the
  subclass declares is lost (`C41_subclass_refuted`).  Without a declared class a record comes back as the
  dict it was visited as (`C41_untyped_refuted`).
* **C41**: cast to a record class without properties (or with extraneous ones only) returns the dict itself
  (`C41_no_properties_refuted`).
* **C42**: items that are left out (None by default) shift the items behind them
  (`C42_items_shift_refuted`); the filter is not applied to items, so `("scores", "a")` shows all scores
  (`C42_items_unfiltered_refuted`); `filter=[]` selects nothing but shows everything, the empty selector being
  false (`C42_empty_filter_refuted`).
* **C42**: casting a list from a mapping reports every item at index 0 (`coll.py:325-328`)
  (`C42_cast_positions_refuted`).

### Exceptions

* **C48**: `property/__init__.py:442` raises `exc.NoneMutable` and `property/meta.py:72` raises
  `exc.AmbiguousPropertyTraitArg`; `exc.py` has neither, so AttributeError comes out
  (`C48_undefined_refuted`).  EmptyDefinitionMissing, EmptySignatureError and VisitorOptionsException are
  defined but never used.
* **C48**: `visitor.py:233` passes `colltype.__name__`, the message asks for `{colltype.__name__}`:
  VisitorUnpackError can never be made, AttributeError ('str' object has no attribute '__name__') comes
  out, whatever is visited (`C48_unpack_refuted`).
* **C48**: `coll.py:144` formats `{itemtype.__name__}`; with a tuple of types as itemtype a rejected item
  gives AttributeError rather than CollectionItemCoerceError (`C48_union_refuted`).
* **C48**: `FieldSelectorException("Could not find ...")` (`selector.py:202-236`, 290) is always printed as
  "(uncustomized exception!)" (`C48_text_lost_refuted`).
* **C48**: from Python 3.10 `name` of a FieldSelectorAttributeError is the member of the builtin
  AttributeError, not the name passed (`C48_name_refuted`).
* **C48**: exceptions whose message has a field can not be pickled, copied or sent between processes: loading
  raises KeywordExceptionFormatError (`C48_copy_lost`, `C48_copy_refuted`).

### Dates and times

* **C49**: without dateutil (which `setup.py` does not require) "2011-1-5" is read as 15 November 2020: the
  dashes are removed first and six digits are taken for yymmdd (`C49_short_refuted`).
* **C49**: the Z of UTC is accepted and dropped (`C49_utc_refuted`); offsets and microseconds, which
  `isoformat` writes, are refused (`C49_datetime_refused`), so the JSON form of such a DatetimeProperty can not
  be read back without dateutil.

### Printing

* **C50**: `JsonRecordDict.__repr__` calls `super(JsonRecordList, self)` on an object that is no JsonRecordList:
  TypeError for every such object and everything that contains one (`C50_jsondict_refuted`).
* **C50**: a plain Property may hold a value that is not of its type; its text is coerced when read, and a
  different object comes out (`C50_unsafe_refuted`).
* **C50**: a deleted default comes back (`C50_deleted_refuted`), since leaving a property out of the constructor
  means the default.
* **C50**: a property of a JsonRecord named json_data (likewise init_dict, values of collections) prints as a
  constructor parameter of that name (`C50_json_data_refuted`).

### Type catalogues

* **C51**: `reflect` on a type that can contain itself (a tree, say) never ends: RecursionError
  (`C51_recursive_refuted`); `Visitor.seen` was meant for this and is not used.
* **C51**: of a property with several record types only the first is described, and its description hides even
  the names of the others (`C51_union_refuted`); records in properties without type are not described at all
  (`C51_undeclared_refuted`).

### Reports of differences

* **C52**: MOVED entries are counted but not shown by `str(diff)` (`C52_moved_refuted`: two different comparisons,
  the same report).
* **C52**: with `unchanged=True` the entry of an item hides those of its fields, as the selectors printed are unions
  (`C52_hidden_refuted`).
* **C52**: if a dict with the key None is compared, `None` is taken as the wildcard and `str(diff)` raises ValueError
  (`C52_none_key_refuted`).
* **C52**: a JsonDiff read back from JSON has no type names; `str()` of it raises AttributeError
  (`C52_reloaded_refuted`).
* **C52**: `base` and `other` given as path text are silently split into characters (`C52_path_text_refuted`).

### Numeric and text properties

* **C53**: `StringProperty` is documented to throw a coerce error if the value is no text. It calls `str()`: numbers,
  True and even None ("None") are stored as text (`C53_string_refuted`). `UnicodeProperty` does refuse them.
* **C53**: `IntProperty`, `LongProperty` and `IntegerProperty` silently drop the fractional part of floats
  (`C53_truncates_refuted`); `FloatProperty` silently maps different large integers to the same float
  (`C53_float_refuted`).

### Collection attributes

* **C54**: a `DictCollection` assigned to a DictProperty of another class (say another item type) is silently replaced
  by an empty collection, since a `DictCollection` is neither a Mapping nor a Sequence; a ListProperty takes its keys
  (`C54_typed_dict_lost_refuted`, `C54_ex_lost`).
* **C54**: `ListProperty(isa=SomeList)` raises `ListOfWhat`; `of=` has to be given too (`C54_isa_alone_refuted`).
* **C54**: `of=` narrower than the item type of `isa=` is accepted and then ignored (`C54_narrower_of_refuted`).
* **C54**: a collection class derived from the declared one may replace `itemtype`; the attribute then holds items of
  another type (`C54_replaced_itemtype_refuted`).
* **C54**: the attributes `of` and `coll` of the property exist only if `isa=` was given (`d_of`, `d_coll`).

### Attributes of AutoJsonRecord

* **C55**: `record.name = value` never stores anything: `__setattr__` calls the property's `__set__` without the value
  (TypeError), looks undeclared names up (KeyError), and for a key of the document does nothing and raises nothing
  (`C55_assign`, `C55_assigned_refuted`); `del record.name` is always a TypeError, as `__delattr__` has one parameter
  too many.
* **C55**: an unknown attribute raises KeyError instead of AttributeError: `hasattr` and `getattr` with a default raise,
  as does `copy.deepcopy`, which asks the instance for `__deepcopy__` (`C55_missing`, `C55_ex`).
* **C55**: keys of a document named like a method (`json_data`, `properties`) cannot be read as attributes
  (`C55_shadowed_refuted`).

### Several types in visits

* **C56**: with `isa=(Base, Derived)` an instance of Derived is visited as Base, losing Derived's own properties, although
  the tuple names its class (`C56_subclass_refuted`).
* **C56**: `cast` makes every dict an instance of the first Record class, since missing properties are no error: with
  `isa=(A, B)` a visited B comes back as an empty A (`C56_cast_refuted`).
* **C56**: with `isa=(Person, str)` text is visited as text but cannot be cast back: VisitorGrokRecordError is no
  TypeError, so `str` is never reached (`C56_cast_text_refuted`); with `isa=(PersonList, str)` text cannot even be visited,
  as the AttributeError made instead of VisitorUnpackError (C48) is no TypeError (`C56_visit_text_refuted`).
* **C56**: a TypeError raised by `apply` anywhere within a record is swallowed in a property of several types and the
  property left out; in a property of one type it is raised (`C56_lost_error_refuted`).
* Read from the code only (not modelled): None in a property with `isa=(Person, type(None))` is visited as a dict of the
  *Property objects* of Person, because `Property.__get__(None)` returns the property itself.

### Shared objects

* **C57**: on objects that contain themselves what was put need not be what is got: with `r.a is r`, `put(r, x)` of
  `FieldSelector(["a", "a"])` sets `r.a = x` and `get(r)` then reads `x.a` (`C57_put_get_refuted`). It holds if the
  changed object is not reached from itself (`C57_put_get`).
* **C57**: `FieldSelector([None, "x"]).put(records, value)` stores the same object in all records; a later change through
  one of them is seen through all others (`C57_put_all_share`). The docstring does not warn about it.

### Sharing by multi field selectors

* **C58**: `patch` without `copy=` can change its source although target and source shared nothing: when the target holds
  one object under two names, the first field stores an object of the source there and the second goes on into it
  (`C58_patch_source_refuted`).
* **C58**: a filtered copy (`MultiFieldSelector.get`) deep-copies each selected part by itself, so an object that the
  original holds twice becomes two (`C58_get_sharing_refuted`).
* **C58**: a `default=` that is a mutable object is not copied per record (`property/__init__.py` 249–257): copy and
  original share it (`C58_get_default_refuted`).

### Equality and differences

`==` and `diff` disagree in both directions.

* **C59**, `==` but reported as different: collections with different properties of their own
  (`C59_own_property_refuted`; `coll.py` `__eq__` looks at items only); lists of dicts, whose items are compared by
  `repr` (`C59_dict_in_list_refuted`, `diff.py` 815–816); dict collections with two records of the same primary key,
  which are paired in the order of iteration (`C59_same_key_refuted`); records whose primary key is extraneous
  (`C59_extraneous_key_refuted`).
* **C59**, not `==` but without a difference: the order of a list (`C59_order_refuted`), the keys of a dict collection or
  of a plain dict (`C59_keys_refuted`, `C59_plain_keys_refuted`), white space (`C59_space_refuted`).

### Identities

* **C60**: different records with the same identity, hence taken for each other when collections are compared: a property
  that is None and one that is not set (`C60_none_refuted`); records of a sub-class in a property of the base class, which
  differ in a property of the sub-class (`C60_subclass_refuted`); dict collections with other keys (`C60_dict_refuted`);
  items of different classes (`C60_item_types_refuted`).
* **C60** (`C60_union_refuted`): in a property with `isa=(Item, str)` all texts have the same identity, a tuple of None:
  `identity.py` 82–89 takes every Record class of the tuple, without asking whether the value is an instance, and reads
  its properties from the text with `getattr(..., None)`.

### Empty slots

* **C61** (`C61_not_called_refuted`, `C61_phantom_refuted`): the documentation of `apply_empty_slots` says the hook is
  called where there is no value. For an unset property declared with a Record class `map_prop` instead maps the
  exception object as if it were such a record (`visitor.py` 700–704): all *its* properties are handed to the hook as
  empty, and the output has `{}` (or what the hook makes of it) for a record that is not there. Cast back, there is an
  empty record where none was set.
* **C61** (`C61_collection_refuted`): an unset property declared with a collection class makes the visit raise, because
  an exception has no `itertuples` and is no list.
* **C61** (`C61_cyclic_refuted`): a class with a property of its own class (a linked list, a tree) cannot be visited with
  the option at all: the descent goes on into records that do not exist until the stack is exhausted.
* **C61** (`C61_cast_refuted`): `cast` with the option raises VisitorGrokRecordError whenever the key of a property
  declared with a Record class is missing, though the property is not required.

### Patching by the paths of a comparison (C63)

`doc/selector.rst` names both purposes of selectors: to say where `diff` found differences, and
`patch`, which assigns a set of fields from one object to another.  Composing the two brings a record
up to date where the differences are slots of nested records.  It does not for items of lists and
collections, because the same index means different items on the two sides:
`{y: [a, b]}` patched towards `{y: [b]}` becomes `{y: [b, b]}` (`C63_removed_items_refuted`); towards
`{y: [a]}` it raises FieldSelectorKeyError (`C63_removed_last_item_refuted`); and lines
`[pen 2, ink 1]` patched towards `[ink 1, pen 3]` become `[pen 1, ink 1]`
(`C63_moved_records_refuted`).

### Generators begun late (C64)

`map_record` and `map_collection` copy the visitor when they are begun, not when they are made.  A
`reduce` or `aggregate` that returns its generator without having asked it for anything (for lazy
output, say) has it begun when the visitor it was made with is somewhere else: the hooks below get
wrong positions, and `is_filtered` decides by them, so that properties are visited that the filter
excludes (`C64_late_refuted`).  The hooks of the library run their generators before they return.

### What has been looked at shows (C65)

`repr` prints the slots that are in the instance dict, so comparing two records with `==` changes
their `repr`, and equal records print differently (`C65_repr_refuted`).  A lazy default that has been
computed stays when a property it was computed from is assigned: comparing or hashing a record before an
assignment changes its identity after it (`C65_stale_refuted`).

### Property types with anonymous traits refuse their own defaults (C66)

`make_property_type` names the trait `trait1`, `trait2`, … unless a name is given.  Composed types list their
bases in the order of trait names, so the classes of the traits `json`, `lazy` and `diffas`, whose `__init__` takes
`json_out`, `lazy` or `compare_as`, come before the new type.  The new type adds its defaults after they have
looked at the arguments, and `Property.__init__` refuses them: every use of such a type raises TypeError, even with
the argument written (`C66_trait_name_refuted`, in general `C66_late`).  The one test of an anonymous type has
only `isa`.  For the same reason a written `default=` that looks like a none is taken for `v1_none`, and then
the type's default is added again (`C66_default_refuted`).

### Functions which are accepted and then called wrongly (C67)

* `inspect.getfullargspec` lists the first argument of bound methods, classes and callable objects, too, so `func_info`
  takes them for functions of one argument.  `default=obj.method` is accepted and each use is a TypeError
  (`C67_bound`, `C67_bound_refuted`); a Record class as default is passed the record which has the property as `init_dict`
  (`C67_record_class_case`).
* Keyword-only parameters are not looked at: a default or compare_as which needs one is accepted, and each call fails
  (`C67_keyword_only_refuted`).
* compare_as is not passed the value if that parameter is optional, and a builtin like `str.lower`, whose parameter is called
  self, is passed the record (`C67_compare_value_refuted`).
* `_json_data` passes `extraneous=` to any `json_data` with some keyword-only parameter (`C67_json_refuted`); and it decides by
  type, so a json_data attribute of one object makes other objects of the type fail with AttributeError
  (`C67_json_caches_refuted`).
* Read from the code only: `default=dict` is refused with a TypeError from inspect, as `dict` has no signature.

### `properties` and the attributes of a class can differ (C68)

* A Property in a plain mixin becomes an attribute of the record class but not one of its properties, and never gets a name
  (`C68_mixin_refuted`): reading it looks for the key None in the instance.
* Another attribute of a mixin that comes first hides the property, which stays listed (`C68_mixin_hides_refuted`; within one
  class body: `C34_hidden_refuted`).
* `_sorted_properties` and `primary_key` are not among the reserved names: a property called `_sorted_properties` is listed and
  initialised but the list overwrites it (`C68_sorted_name_refuted`).
* When a subclass overrides a property `x` by one with `empty_attr=None`, `x0` still is the accessor of the old property
  (`C68_accessor_refuted`): it gives placeholders of the old type, and does not evaluate the new default if that is lazy.

### What json_out returns is passed on as it is (C69)

* The result of a json_out function goes into the output unconverted, so that a tuple, a record or anything else ends up in
  what is to be a JSON document (`C69_json_out_refuted`).
* json_out is not passed `extraneous`, so a json_out which "recurses into to_json", as its documentation says it should, puts
  the extraneous attributes of the records within into all output (`C69_json_out_extraneous_refuted`); all the more as
  `to_json` has `extraneous=True` by default where `json_data` has False.
* Read from the code only: `decimal.Decimal` is passed through although `json.dumps` does not take it.

### An attribute coerced to None comes back with its default (C70)

Where coercion makes None of a value from a document and None is not of the property's type, the attribute is left unset, even
if the property has a default (property/__init__.py:202-272). It is then not written, and when the output is loaded the
default appears in its place (`C70_default_refuted`).

### Ignoring more can bring up differences (C71)

- Records in a collection are matched by their primary key after text is normalised, or by all their values if there is none.
  With ignore_case two keys may become one; the records that share it are then matched in order of appearance, and equal
  collections in a different order show differences which they do not show with case respected (`C71_collection_refuted`).
- Lists of plain values: with ignore_case a list may show two differences where there is one without (`C71_count_refuted`).
- Items without a hash are compared by their repr(), to which text options are not applied; a text item that equals the repr()
  of a list matches it, but with ignore_case only the text is changed (`C71_repr_refuted`).

### A collection for which the hook returns None is given to apply (C72)

visitor.py:625-637 takes a mapped collection of None for no collection. If a visitor's collect or aggregate hook returns None for
a collection type whose properties are not unpacked, apply is called with the whole collection, after its items were visited, and
reduce is not called (`C72_collect_none_refuted`).

### Copies and hashes of field selectors (C73)

* `copy.copy` of a selector gives one with the same list: changing either by add_property, extend and the like changes both,
  forever (`C73_copy_shares`, `C73_copy_refuted`). FieldSelector(fs), pickle and deepcopy are safe (`C73_own`).
* selector.py:370-371 keeps the hash of the object although `==` compares paths: an equal selector is not found in a set, or
  among the keys of a dict (`C73_set_refuted`).
* `fs != x` raises AttributeError where `fs == x` raises TypeError, if x is no selector (`C73_equal`).

### Identities of nested records in exponential time (C74)

* identity.py:90-98 computes the identity of a value for every record class declared for the property, to choose one of them.
  The value is the same each time, so a chain of k records in properties declared with two classes takes 2^(k+1)-1 calls
  (`C74_union_refuted`).
* identity.py:102 hashes a value just to see whether it can be hashed. If it is a record (in a property declared as object,
  say), its identity is computed, thrown away, and computed again when the identity is hashed: again 2^(k+1)-1 calls for a
  chain of k records (`C74_object_refuted`). Everything that compares collections of such records is affected.

### Pickling a list of children loses the children (C75)

* `_Generic.__reduce__` (coll.py:470-472) passes the items as an argument of the constructor, so pickle knows of the collection
  only when all items are done. If an item leads back to the collection, a second one is made of the list as it is then, which
  is empty, and pickle uses this one for both. So `pickle.loads(pickle.dumps(parent.children))` is empty whenever the children
  refer to their parent (`C75_lost`, `C75_pickle_refuted`); pickling the parent works (`C75_from_record`).
* `copy.deepcopy(parent.children)` has the children, but the copy of the parent refers to another collection
  (`C75_deepcopy_refuted`).

### Lazy properties and generic types are not safe with threads (C76)

* `LazyProperty.__get__` (property/__init__.py:365-369) tests, computes and stores without a lock. Two threads which read first
  both call the default; the first may return a value which is then replaced (`C76_twice_refuted`). For `ROLazyProperty` this
  contradicts "read-only": the value of the slot changes after it was seen.
* A value assigned while the default is computed is overwritten by the default (`C76_lost_assignment_refuted`).
* `_make_generic` (coll.py:491-503): two threads may get different classes from `list_of(t)`; values of the one are not
  instances of the other (`C76_two_types_refuted`).
* `Property.__get__` tests and then looks up: if the slot is deleted in between, the reader gets `KeyError`, which (in Python 3) `hasattr` and
  `getattr(…, default)` do not catch (`C76_key_error_refuted`).

### Objects which lead to themselves (C77)

* Nothing remembers the objects being done: for records which refer to each other (spouses; a parent and its children, unless
  one direction is extraneous and excluded from JSON) `==`, `hash()`, `repr()` and `to_json` raise RecursionError (`C77_json`,
  `C77_hash`, `C77_repr`, `C77_eq_copy`), and so does `x == x`, as records (unlike items of a list) are not taken as equal to themselves
  (`C77_ex_itself`). Pickling and deep copying manage them (C75).
* Whether `a == b` is False or a RecursionError depends on the order in which the properties are declared (`C77_order_refuted`).
* ListCollection prints its items itself (coll.py:419) and loses the protection which Python's list has; DictCollection
  has it (`C77_repr`, `C77_ex_dict`).
* Objects shared in k levels are marshalled 2^k times (`C77_shared_exponential`).

### A collection extended by itself, and copied collections (C78)

* `coll.extend(coll)` never ends for a collection with items: `extend` (coll.py:351) gives `list.extend` a generator over the very
  list it extends (`C78_extend_self`). `list.extend` with itself doubles the list. The comment above the line has the remedy:
  slice assignment, which collects the items first.
* `copy.copy` of a collection of a declared class shares the list of items, since `__getstate__` (record/__init__.py:75-78) returns the
  instance dict: items appended to the copy appear in the original (`C78_copy_shares`, `C78_copy_refuted`). Generic collections
  (`list_of`) are constructed anew (coll.py:470-472) and do not share.

### `recurse` does not descend everywhere (C79)

* The option is described as "do a deeper comparison via recursion". It compares collections of records by position; lists
  and untyped collections are compared as multisets as before, so a changed item there is reported as removed and added, or
  not at all if it is found elsewhere (`C79_recurse_refuted`).
* An item inserted at the front of a list makes all later items differ; identities, primary keys and fuzzy matching are
  computed but not used (`C79_identities`), though an identity which cannot be computed still stops the comparison.

### `duck_type` passes over differences (C80)

* A slot which holds a text, number or date in the base and a list, dict, record or collection in the other is never
  reported (`C80_slot`, `C80_blind_refuted`): `comparable` is true as one of the two is comparable, so `_diff_iter` is
  called, which looks at the type of the base only and yields nothing. Without `duck_type` it is a modification.
  The other way round the items of the text are compared with those of the list.
* An empty list, an empty record or a collection of empty records against a missing slot is not reported; without
  `duck_type` it is removed or added. The documentation of `duck_type` does not say so.
* Properties which only the other record's class has are not looked at (`C80_base_properties`); this is as documented.

### `ignore_empty_slots` ignores more than empty slots (C81)

The documentation (diff.py 157–160) says that slots containing `''` and `None` are treated as not set. Besides these:

* An empty list, dict or collection, or one of which nothing is left, against a missing slot is not reported
  (`C81_slot`, `C81_more_refuted`), though `value_is_empty` is false of it: the two are compared as collections, which
  yields nothing, and `net_diff` stays `None`.
* Items `''` and `None` of lists, dicts and untyped collections are left out of the comparison (diff.py 817, 902), though
  they are no slots; for these the documentation has `ignore_empty_items`, which is not consulted there.

### `ignore_empty_items` does not look at all compared fields (C82)

The documentation (diff.py 162–166) says that, without a primary key, an item is absent if all *compared* fields are
`None`, not set or `''`. With `extraneous=True` the extraneous fields are compared as well, yet an item in which only
extraneous fields are set is left out, so that its removal is not reported (`C82_compared_refuted`): `record_id` always
uses the fields which are not extraneous. A field which holds an empty tuple counts as empty too.

### Names and texts which do not tell things apart, and `str()` of a valid record can raise (C83)

* Different traits give composed types of one name (`C83_distinct_refuted`): merging `ListProperty` and `PropertyList` into
  `SafeProperty` gives `ListSafeProperty` both times. A name such as `ROLazyProperty` counts `ROLazy` as one word, so with
  `LazySafeProperty` it becomes `ROLazyLazySafeProperty` (`C83_ex`).
* `str()` of a valid record raises `KeyHashError` if a typed property holds an empty collection and is part of the key
  (`C83_str_total_refuted`), although it is documented as an informal text; error messages which format a record with `%s`
  then fail too.
* Records with different keys have the same text when the keys agree in their first 30 characters and are longer than 32
  (`C83_str_distinct_refuted`).

### A record loaded from a document can change with the document (C84)

`json_to_initkwargs` deep-copies unknown keys (json.py 113–117) but takes the values of properties without a record type
as they are, so a list or dict in such a property is an object of the document: changing the document afterwards changes the
record, unnoticed by any type check or read-only property (`C84_independent_refuted`). Writing has no such effect
(`C84_dump`).

### Typed dicts: copies share, and a typed dict made of a typed dict is empty (C85)

As with lists (C78), `copy.copy` of a typed dict whose class was declared shares the dict with the original, so that a change of
one shows in the other (`C85_copy_refuted`); one made by `dict_of` is made anew. And since a `DictCollection` is neither a
Mapping nor a Sequence (coll.py 227–240), `cls(d)` for a typed dict `d` is an empty one, without an exception
(`C85_make_refuted`), while `update` takes the entries of `d`.

### repr of an exception with a tuple among its positional arguments (C86)

`"%r" % x` (exc.py 71) takes a tuple `x` as the arguments of the format. So `repr` of an exception raises TypeError if a
positional argument is a tuple of zero or of two or more elements (`C86_tuple_fails`), and prints a tuple of one element like the
element (`C86_tuple_refuted`). Keyword arguments are not affected, since line 72 formats them as part of a tuple.

### Keys of dict collections and names of properties share their paths (C80)

A difference between the items under the key "x" of two dict collections and one between their properties `x` have base paths that
are the same (`C80_dict_slot_refuted`), so that the entries can not be told apart by these. So the theorems on single slots are
about records and list collections, where positions and names never meet.

### Blank items move the others (C82)

With `ignore_empty_items`, positions still count the blank items. This is what the entries should tell, but with `moved` asked for
an item behind a blank one counts as moved although nothing which is not ignored has changed (`C82_moved_refuted`).
