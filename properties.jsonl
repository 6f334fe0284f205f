{"id": "C01", "title": "Field selector text form round-trips", "statement": "For every FieldSelector whose integer elements are non-negative, whose string elements are non-empty, contain no quote immediately followed by ']' and do not end in a newline after an otherwise plain identifier, FieldSelector.from_path(fs.path) compares equal to fs. Outside that domain the round trip really does fail: witnesses exist for a negative index, an empty key, a key containing \"']\" and an identifier ending in a newline.", "quantifier": "every list of path elements (strings over all of Unicode, integers, wildcards)", "why_tests_cant": "The text form is parsed by a backtracking regular expression over an infinite alphabet; the tests use about ten hand-picked paths.", "anchors": ["normalize/selector.py:FieldSelector.path", "normalize/selector.py:FieldSelector.from_path", "normalize/selector.py:_fmt_selector_path", "normalize/selector.py:_PATH_TOK", "normalize/selector.py:_scan_selector_path"]}
{"id": "C02", "title": "Field selectors are strictly ordered", "statement": "Among FieldSelectors which agree about the kind of element (string / integer / wildcard) at each position where they first differ, '<' is irreflexive, transitive and total, is exactly the lexicographic order with a proper prefix first, and agrees with '=='; sorting any such list therefore visits collection indices in increasing order. Selectors which first differ in kind raise TypeError in both directions; two selectors never give True in both directions.", "quantifier": "every pair and triple of field selectors", "why_tests_cant": "Transitivity and totality quantify over all triples; a sort can mis-order only on inputs never listed.", "anchors": ["normalize/selector.py:FieldSelector.__lt__", "normalize/selector.py:FieldSelector.__eq__"]}
{"id": "C03", "title": "Field selector algebra", "statement": "Adding, extending, slicing and prefix-testing field selectors form the free monoid: (a+b)+c == a+(b+c), the empty selector is neutral, len(a+b)==len(a)+len(b), (a+b)[:len(a)]==a and (a+b)[len(a):]==b, and (a+b).startswith(a) is True; a.startswith(b) is True only if a == b + a[len(b):]; no operand is altered by '+'. When b is longer than a and a is a prefix of b, a.startswith(b) raises IndexError rather than answering.", "quantifier": "all selectors a, b, c", "why_tests_cant": "Algebraic laws over unbounded lists.", "anchors": ["normalize/selector.py:FieldSelector.__add__", "normalize/selector.py:FieldSelector.extend", "normalize/selector.py:FieldSelector.__getitem__", "normalize/selector.py:FieldSelector.startswith", "normalize/selector.py:FieldSelector.__len__"]}
{"id": "C04", "title": "put followed by get returns the value, and disturbs nothing else", "statement": "For a wildcard-free selector: if fs.put(obj, v) succeeds then fs.get(obj) returns exactly what was stored (v after the slot's own coercion), and for every other wildcard-free selector (non-negative indices) that is neither a prefix nor an extension of fs, get on that selector gives the same result or the same failure as before. If put raises, the object is unchanged.", "quantifier": "all object trees (records, lists, dicts, nested to any depth), all selectors, all values", "why_tests_cant": "A frame property over all pairs of paths and all object shapes.", "anchors": ["normalize/selector.py:FieldSelector.put", "normalize/selector.py:FieldSelector.get", "normalize/selector.py:_try_index"]}
{"id": "C05", "title": "Wildcard get maps over the collection and raises only if every item fails", "statement": "Getting a selector with a wildcard returns one entry per item in order; an entry is the item's own result, or None where that item lacks the field; an exception is raised exactly when the collection is non-empty and every item fails, and then it is the first item's exception. An empty collection gives the empty list. This covers lists of records; for items that are dicts a missing key escapes as KeyError, and over a dict collection the wildcard visits keys, not values (findings).", "quantifier": "all collections, all sub-selectors, any nesting of wildcards", "why_tests_cant": "Depends on the accumulated state of a loop over collections of any length with any failure pattern.", "anchors": ["normalize/selector.py:FieldSelector.get", "normalize/selector.py:FieldSelector.get_or_none"]}
{"id": "C06", "title": "Deleting a path removes that path and nothing else", "statement": "For a wildcard-free selector ending in an attribute or dict key: after a delete that does not raise, get on the selector fails (unless the class itself shows something for an unset attribute); any selector that parts ways with the deleted one (neither begins with the other) reads as before, the other positions of a list an item is deleted from excepted. Deleting an attribute that is already unset is a no-op. For list items, delete removes exactly that position and shifts later ones. When a wildcard-free delete raises, nothing was changed; a wildcard delete raises a selector exception only if every item failed, and then nothing was changed (exceptions of other kinds escape midway: finding).", "quantifier": "all object trees and selectors", "why_tests_cant": "Frame property over all pairs of paths.", "anchors": ["normalize/selector.py:FieldSelector.delete"]}
{"id": "C07", "title": "post creates the missing path", "statement": "When fs.post(obj, v) on a wildcard-free selector returns, it returns 1, fs.get(obj) afterwards gives the posted value, and no attribute or item which existed before and is not on the path is changed, provided that no dict key more than two steps from the end is missing (otherwise the value goes elsewhere: finding); lists grow by at most one item per level and only at the end (an index beyond the end raises ValueError and leaves earlier levels as they were). The documented wildcard form does not work: posting through a wildcard over a non-empty collection always raises TypeError.", "quantifier": "all object trees, all selectors, all values", "why_tests_cant": "Auto-vivification branches at every level; combinations are unbounded.", "anchors": ["normalize/selector.py:FieldSelector.post"]}
{"id": "C08", "title": "A multi field selector denotes exactly the union of its selectors", "statement": "A path is matched by MultiFieldSelector(*paths) (`FieldSelector(p) in mfs`) exactly when some given path, with wildcards standing for any key and a final wildcard standing for the whole collection, is a prefix of it; iteration yields selectors that denote the same set of paths, none of them an extension of another; building from the iterated selectors, from any permutation or repetition of the arguments, or from nested MultiFieldSelectors gives the same set. Mixing a wildcard with names or indices at one level raises ValueError and nothing else does.", "quantifier": "all finite families of paths", "why_tests_cant": "Set equality over infinitely many probes, for every family and every argument order.", "anchors": ["normalize/selector.py:MultiFieldSelector.__init__", "normalize/selector.py:MultiFieldSelector.__iter__", "normalize/selector.py:MultiFieldSelector.__contains__"]}
{"id": "C09", "title": "Subscripting a multi field selector composes", "statement": "mfs[p] is the residual of mfs after p: q in mfs[p] iff p+q in mfs; (mfs[p])[q] and mfs[p+q] denote the same set; mfs[p] is None iff nothing below p is matched; once complete, always complete. Subscripting a wildcard selector by a bare index differs from subscripting by the one-element path: the former gives None although `index in mfs` is True.", "quantifier": "all selectors and all paths p, q", "why_tests_cant": "Composition law over unbounded trees and paths.", "anchors": ["normalize/selector.py:MultiFieldSelector.__getitem__", "normalize/selector.py:MultiFieldSelector.__contains__", "normalize/selector.py:MultiFieldSelector.complete_mfs"]}
{"id": "C10", "title": "Multi field selector text form round-trips", "statement": "For every MultiFieldSelector with at least one path, over elements as in C01, MultiFieldSelector.from_path(mfs.path) denotes the same set of paths, through any nesting of parentheses and alternatives. The selector without any path prints as '()' and reads back as the one matching everything (finding).", "quantifier": "all finite families of paths", "why_tests_cant": "The parser keeps a stack of resume points; correctness is about every nesting shape.", "anchors": ["normalize/selector.py:MultiFieldSelector.path", "normalize/selector.py:MultiFieldSelector.from_path", "normalize/selector.py:_scan_mfs_path", "normalize/selector.py:_MFS_PATH_TOK"]}
{"id": "C11", "title": "Filtering by a multi field selector keeps exactly the selected fields", "statement": "mfs.get(obj), for selectors made of names and wildcards and classes whose constructors take over exactly what they are given: everything in obj that is on or below a selected path and not None is in the result under the same path and equal; every record, list or dict above a selected path is there with the same type; nothing else is there. With list indices the selected items come out in index order without gaps. Not so (findings) if constructors fill in defaults, if a path goes below a plain value (it is replaced by an empty value of its type), or for list indices (items are not found under their old index).", "quantifier": "all object trees and selectors", "why_tests_cant": "Quantifies over all probes in all filtered objects.", "anchors": ["normalize/selector.py:MultiFieldSelector.get", "normalize/selector.py:MultiFieldSelector._get"]}
{"id": "C12", "title": "Multi field selector delete without force is all-or-nothing on missing fields", "statement": "mfs.delete(obj) without force raises and leaves obj unchanged if some selected path cannot be read; otherwise, for paths of names which may be deleted, it removes every selected field and changes nothing else; with force=True missing fields of records never raise. Not so (findings) for list indices (the wrong items are removed, or it fails halfway), required attributes (fails halfway), and dict keys with force (KeyError).", "quantifier": "all object trees and selectors", "why_tests_cant": "The failing selector may be any of the family, after any number of successful ones.", "anchors": ["normalize/selector.py:MultiFieldSelector.delete"]}
{"id": "C13", "title": "Typed slots stay type-safe through any history", "statement": "Starting from a successful construction, after any sequence of attribute assignments, deletions and reads on a record with type-checked (default) properties - including operations that raise - every set slot holds a value accepted by the property's declared type and check.", "quantifier": "all record types, all coercion and check functions, all finite operation histories", "why_tests_cant": "Histories and user-supplied coercion functions are unbounded.", "anchors": ["normalize/property/__init__.py:Property.type_safe_value", "normalize/property/__init__.py:Property.init_prop", "normalize/property/__init__.py:SafeProperty.__set__", "normalize/property/__init__.py:SafeProperty.__delete__", "normalize/property/__init__.py:LazyProperty.__get__", "normalize/record/__init__.py:Record.__init__"]}
{"id": "C14", "title": "Required slots are always present, and constructors reject anything less", "statement": "Construction succeeds only if every required property received a value (given, or from its default); a required slot of a type-checked or read-only property is never unset by any later history. (Lazy properties are exempt from the check at construction: a finding.)", "quantifier": "all record types and histories", "why_tests_cant": "Quantifies over all histories including failing deletes.", "anchors": ["normalize/property/__init__.py:Property.init_prop", "normalize/property/__init__.py:Property.eager_init", "normalize/property/__init__.py:SafeProperty.__delete__", "normalize/record/__init__.py:Record.__init__", "normalize/record/meta.py:RecordMeta.__new__"]}
{"id": "C15", "title": "A rejected assignment or deletion changes nothing", "statement": "If assigning to or deleting an attribute of a record raises, every slot of the record is exactly as before.", "quantifier": "all property kinds, all values, all coercion/check functions, all prior states", "why_tests_cant": "Failure atomicity at every failure point of user code.", "anchors": ["normalize/property/__init__.py:SafeProperty.__set__", "normalize/property/__init__.py:SafeProperty.__delete__", "normalize/property/__init__.py:V1Property.__set__", "normalize/property/__init__.py:ROProperty.__set__"]}
{"id": "C16", "title": "Read-only slots never change once set", "statement": "After construction no history of assignments, deletions and reads changes the value of a set read-only slot; a lazy read-only slot may only go from unset to its computed default.", "quantifier": "all histories", "why_tests_cant": "Unbounded histories.", "anchors": ["normalize/property/__init__.py:ROProperty.__set__", "normalize/property/__init__.py:ROProperty.__delete__", "normalize/property/__init__.py:ROLazyProperty.__get__"]}
{"id": "C17", "title": "A lazy default is computed at most once between assignments, and reads are stable", "statement": "Reading a lazy slot calls the default function only if the slot is unset; every later read returns the same value without calling it until the slot is assigned or deleted; a default which fails its type check raises, stores nothing, and will be recomputed.", "quantifier": "all default functions (which may give a different answer on each call), all histories", "why_tests_cant": "Call counting over arbitrary interleavings of reads and writes.", "anchors": ["normalize/property/__init__.py:LazyProperty.__get__", "normalize/property/__init__.py:LazySafeProperty.__get__", "normalize/property/__init__.py:ROLazyProperty.__get__"]}
{"id": "C18", "title": "Unset 'v1' attributes read as their none value, and assigning it clears them", "statement": "Reading an unset v1 attribute never raises and returns its declared none value. Assigning None (or the none value), when the declared type rejects it, leaves the attribute unset; for an attribute that was already unset this raises KeyError instead of being accepted (finding), and never changes another slot.", "quantifier": "all v1 properties, all values and prior states", "why_tests_cant": "Interaction of coercion failure, equality with the none value and deletion over all states.", "anchors": ["normalize/property/__init__.py:V1Property.__set__", "normalize/property/__init__.py:V1Property.attribute_error_hook", "normalize/property/__init__.py:V1Property.slot_is_empty"]}
{"id": "C19", "title": "Re-assigning a slot its own value is a no-op", "statement": "For every set slot of a type-checked property, reading it and assigning the result back succeeds and leaves the record unchanged: coercion is idempotent on accepted values.", "quantifier": "all property declarations and coercion functions whose outcome was accepted once", "why_tests_cant": "Quantifies over arbitrary coercion functions.", "anchors": ["normalize/property/__init__.py:Property.type_safe_value", "normalize/property/__init__.py:SafeProperty.__set__"]}
{"id": "C20", "title": "Construction from keywords", "statement": "Construction sets exactly the passed properties plus defaults of the eager missing ones; with deterministic defaults not reading the instance, the result does not depend on keyword order; unknown names are rejected; passing both a non-empty dict and keywords is rejected.", "quantifier": "all record types and keyword sets", "why_tests_cant": "All permutations of all keyword sets.", "anchors": ["normalize/record/__init__.py:Record.__init__", "normalize/property/__init__.py:Property.init_prop"]}
{"id": "C21", "title": "Typed collections only ever hold items of their type", "statement": "If the collection's item coercion, whenever it returns, returns an item of the declared type, then after any history of list/dict operations - including failed ones - every item of a typed collection is of the declared type. Without that assumption the guarantee fails: the coerced item is never re-checked.", "quantifier": "all operation histories, all values, all item coercions", "why_tests_cant": "Unbounded histories with failures part-way.", "anchors": ["normalize/coll.py:Collection.coerce_value", "normalize/coll.py:ListCollection", "normalize/coll.py:DictCollection", "normalize/coll.py:KeyedCollection.__setitem__"]}
{"id": "C22", "title": "Typed lists behave like Python lists of the coerced items", "statement": "Every mutator and query of a typed list gives the same list and the same result as the builtin list operation on coerced items, for all arguments, except for the documented divergences: insert(i, x) inserts the items of x rather than x, pop(i) with i < -len pops the first item instead of raising, and index(x, i, j) with j > len raises IndexError instead of ValueError. Slice assignment with a bad item changes nothing, extend with a bad item keeps the items before it.", "quantifier": "all lists, all indices (negative and out of range), all values", "why_tests_cant": "All integer index values against all list lengths.", "anchors": ["normalize/coll.py:ListCollection.append", "normalize/coll.py:ListCollection.extend", "normalize/coll.py:ListCollection.insert", "normalize/coll.py:ListCollection.pop", "normalize/coll.py:ListCollection.remove", "normalize/coll.py:ListCollection.index", "normalize/coll.py:ListCollection.__setitem__"]}
{"id": "C23", "title": "Typed dicts behave like Python dicts of the coerced values", "statement": "Assignment, deletion, update, pop, clear and lookup on a typed dict agree with a finite map whose values are coerced; a failing update keeps the entries written before the failure and touches no other key.", "quantifier": "all histories", "why_tests_cant": "Unbounded histories with partial failure.", "anchors": ["normalize/coll.py:DictCollection", "normalize/coll.py:KeyedCollection"]}
{"id": "C24", "title": "Record equality is an equivalence and ignores extraneous properties", "statement": "On records (nested to any depth, holding values whose own equality is an equivalence) == is reflexive, symmetric and (where each slot or item position is either one for typed collections or one for plain lists and dicts) transitive, != is its negation, it is False across types, and changing an extraneous property never changes the answer. For typed collections == compares only item type and items: it ignores extra properties, and is symmetric even against a plain list; transitivity fails when a plain list is compared with collections of two item types (finding).", "quantifier": "all records and collections", "why_tests_cant": "Equivalence laws range over all triples.", "anchors": ["normalize/record/__init__.py:Record.__eq__", "normalize/coll.py:Collection.__eq__"]}
{"id": "C25", "title": "Equal records hash alike", "statement": "If two records of a type (whose declared key fields are not extraneous, with no dict collections inside) compare equal and are hashable then their hashes are equal. It fails for records holding dict collections filled in different order, and for a primary key over an extraneous property.", "quantifier": "all pairs of equal records", "why_tests_cant": "Ranges over all pairs.", "anchors": ["normalize/record/__init__.py:Record.__hash__", "normalize/record/__init__.py:Record.__eq__", "normalize/identity.py:record_id"]}
{"id": "C26", "title": "Whitespace normalisation", "statement": "Comparing text with whitespace ignored is comparing the sequences of maximal non-blank runs: normalisation is idempotent, never has leading/trailing/double blanks, and two texts normalise alike iff they have the same word sequence. Under every combination of the case and Unicode options two texts with the same words normalise alike; with case ignored (and an upper-casing which works word by word and leaves blanks alone) two texts normalise alike iff their words agree after upper-casing.", "quantifier": "all Unicode strings", "why_tests_cant": "All strings.", "anchors": ["normalize/diff.py:DiffOptions.normalize_whitespace", "normalize/diff.py:DiffOptions.normalize_text", "normalize/diff.py:DiffOptions.normalize_val"]}
{"id": "C27", "title": "Diff of an object with itself is empty", "statement": "diff(a, a) reports nothing for every value built of records, typed collections, lists and dicts, under every combination of options (unless unchanged items were asked for, in which case every entry is NO_CHANGE with the same path on both sides); without a filter and compare_as it does not raise. Values not equal to themselves (NaN) are outside (finding: MODIFIED).", "quantifier": "all values and option settings, any iteration order of sets; == reflexive", "why_tests_cant": "All values times all options.", "anchors": ["normalize/diff.py:diff_iter", "normalize/diff.py:compare_record_iter", "normalize/diff.py:compare_collection_iter", "normalize/diff.py:compare_list_iter", "normalize/diff.py:compare_dict_iter"]}
{"id": "C28", "title": "Simple list and dict diffs are exact multiset differences", "statement": "Comparing two plain lists (or dicts) of hashable values reports nothing iff they hold the same multiset of normalised values; the number of removals minus additions equals the difference of lengths; each position is mentioned at most once per side; an index is MODIFIED iff it is unmatched on both sides, and a REMOVED/ADDED entry names a position whose normalised value is in surplus there. Unhashable items are compared through their repr, so a list [\"[1]\"] and [[1]] compare as unchanged (finding).", "quantifier": "all lists/dicts and all hash-iteration orders", "why_tests_cant": "Set iteration order is nondeterministic; all lists.", "anchors": ["normalize/diff.py:compare_list_iter", "normalize/diff.py:compare_dict_iter"]}
{"id": "C29", "title": "Diff is antisymmetric in its arguments", "statement": "Swapping the arguments of a comparison of records, collections, lists or dicts swaps base and other and exchanges ADDED with REMOVED, and changes nothing else, up to the order of entries. With fuzzy matching this requires that a set with the same history is iterated in the same order; without it the report does not depend on the order of sets at all. Findings: duck typing breaks it; with ties in fuzzy matching the report for the same operands depends on the iteration order of sets.", "quantifier": "all pairs of values of one type, all filters, all options but duck_type", "why_tests_cant": "All pairs.", "anchors": ["normalize/diff.py:compare_record_iter", "normalize/diff.py:compare_list_iter", "normalize/diff.py:compare_dict_iter"]}
{"id": "C30", "title": "Record diff is exact", "statement": "With default options, comparing two records, collections, lists or dicts of one type reports exactly the differences: nothing iff they agree (slot by slot for records; as multisets of normalised items for lists and dicts; by identity and then item by item for collections of records); every reported path exists on the side(s) it claims: REMOVED in base only, ADDED in other only, MODIFIED (MOVED, NO_CHANGE) in both; no pair of paths is reported twice. Fuzzy matching only decides, fairly, which left over items with a truthy key field in common are paired. Findings: fuzzy matching hides a difference in an extraneous primary key; a DictCollection key equal to the name of a property yields a path twice; items with equal identity and different types raise; with unchanged=True an item modified inside is also reported as unchanged.", "quantifier": "all pairs of records", "why_tests_cant": "All pairs of nested records.", "anchors": ["normalize/diff.py:compare_record_iter", "normalize/diff.py:_diff_iter"]}
{"id": "C31", "title": "Diff honours its filter", "statement": "Every path reported under a compare_filter lies at, above or below a path selected by the filter; slots outside the filter have no influence on the output: changing them on either side gives the same diff; and nothing selected is lost: the entries are exactly those of the unfiltered comparison whose path is selected (where the identities of items do not depend on the filter). Findings: a selector of a single item of a plain list does not restrict the list; a selector of a slot of a single item of a record collection makes the item be skipped; below a second wildcard, and if only extraneous slots of a sub record are selected, slots outside the filter do influence the identity of items and hence the diff.", "quantifier": "all filters, all pairs of records", "why_tests_cant": "Non-interference property over all values of unselected slots.", "anchors": ["normalize/diff.py:DiffOptions.is_filtered", "normalize/diff.py:compare_record_iter"]}
{"id": "C32", "title": "Fuzzy matching of collection items pairs each item at most once", "statement": "However items compare, approximate matching in record collections pairs each removed item with at most one added item and vice versa, only pairs which share a truthy key field, and greedily: if two items share a truthy key field and are not paired with each other, one of them is paired in a match at least as good (so no unmatched removed/added pair remains that shares a truthy key field).", "quantifier": "all sets of items, all orders of equal scores", "why_tests_cant": "Greedy matching over arbitrary score tables and tie orders.", "anchors": ["normalize/diff.py:_fuzzy_match", "normalize/diff.py:compare_collection_iter"]}
{"id": "C33", "title": "Property trait composition yields exactly the requested traits", "statement": "Whenever composing a property type from a trait set succeeds, the registered type has exactly these traits, previously registered types are untouched, and asking again returns the same type without creating any. Composition always terminates. A declaration selects exactly the traits of the type called, those listed and those implied by its arguments, up to the rules for unsafe, safe and v1; calling Property, or a type with a trait of its own, always gives an initialised instance of it. Composition does not depend only on the requested traits: over the stock types it fails with KeyError or PropertyTypeClash, or succeeds, depending on what was declared before (finding).", "quantifier": "all registries and trait sets", "why_tests_cant": "Registry state is an arbitrary history of earlier declarations.", "anchors": ["normalize/property/meta.py:create_property_type_from_traits", "normalize/property/meta.py:has", "normalize/property/meta.py:MetaProperty.__new__"]}
{"id": "C34", "title": "Class declaration collects inherited properties", "statement": "A declared record type's properties are exactly the local ones plus the inherited ones not overridden; a name inherited through two bases is rejected, even when it is the very same property inherited twice (finding: diamonds are impossible); the eager set is exactly the required-or-defaulted non-lazy ones; the primary key is the listed properties in order and one naming an unknown property is rejected; fresh properties get the name they are declared under and are bound to the class, and no other property object changes; the sorted list is the non-extraneous properties by name; each fresh property's accessor is added and all other attributes are kept.", "quantifier": "all class hierarchies", "why_tests_cant": "All inheritance graphs.", "anchors": ["normalize/record/meta.py:RecordMeta.__new__"]}
{"id": "C35", "title": "Subtypes only ever yield conforming values", "statement": "Calling a subtype returns a value which satisfies the base type and the predicate, or raises; values already conforming are returned unchanged; a predicate that raises counts as non-conforming. Used as a property type, a coercion yielding None drops an optional slot at construction and is rejected on assignment.", "quantifier": "all predicates (possibly raising) and coercions", "why_tests_cant": "Arbitrary user functions.", "anchors": ["normalize/subtype.py:subtype", "normalize/property/__init__.py:Property.type_safe_value"]}
{"id": "C36", "title": "Empty placeholders are always false, persistent and never writable", "statement": "The placeholder for a type tuple is always the same object, however many were asked for in between; any tuple mentioning 'any' gives the universal placeholder, which absorbs attribute, item and call access; item types of an access chain are inferred without repetition, in first-seen order, and independently of what was accessed before; assignment is refused; the accessor of an attribute gives its value or, if reading it raises AttributeError, the placeholder for its type.", "quantifier": "all type tuples and access histories", "why_tests_cant": "Global cache state under arbitrary access histories.", "anchors": ["normalize/empty.py:placeholder", "normalize/empty.py:itertypes", "normalize/empty.py:EmptyVal"]}
{"id": "C37", "title": "JSON marshalling round-trips", "statement": "For a JSON record type with distinct JSON names and mutually inverse per-property conversions, loading the data produced by marshalling out gives an equal record, nested to any depth, with unknown keys included on request. Properties excluded from JSON are lost; integers beyond 2**50 come back as strings unless the property's type coerces them.", "quantifier": "all records of such types", "why_tests_cant": "All nested values.", "anchors": ["normalize/record/json.py:to_json", "normalize/record/json.py:from_json", "normalize/record/json.py:json_to_initkwargs", "normalize/record/json.py:JsonRecord.json_data"]}
{"id": "C38", "title": "Unknown JSON keys are preserved and never overwrite known ones", "statement": "Every key of the input document is either the JSON name of a property or appears, with an equal value, among the unknown keys; marshalling out with extraneous data emits every unknown key, and a key which is also produced by a property keeps the property's value.", "quantifier": "all documents and record types", "why_tests_cant": "All documents.", "anchors": ["normalize/record/json.py:json_to_initkwargs", "normalize/record/json.py:JsonRecord.json_data"]}
{"id": "C39", "title": "JSON ingress errors carry the exact path", "statement": "When loading nested JSON fails at some leaf, the raised conversion error's path is exactly the sequence of JSON keys and indices leading to that leaf, and its cause is the leaf's own error, however deep. An error noticed only when the record is constructed from the converted values (a type or check error) is that record's, not the key's (finding).", "quantifier": "all documents, all failing positions", "why_tests_cant": "Every nesting depth and failing position.", "anchors": ["normalize/record/json.py:_box_ingress_error", "normalize/record/json.py:json_to_initkwargs", "normalize/record/json.py:JsonRecordList.json_to_initkwargs", "normalize/record/json.py:JsonRecordDict.json_to_initkwargs"]}
{"id": "C40", "title": "Automatic key conversion is reversible for camelCase keys", "statement": "For every JSON key in which no lower-case letter or digit is followed by an underscore and a lower-case letter, converting in and back out gives the key itself; the conversion is not injective in general: two different keys can collide and one is lost (finding). The non-converting variant preserves all keys.", "quantifier": "all strings", "why_tests_cant": "All strings.", "anchors": ["normalize/record/json.py:AutoJsonRecord.convert_json_key_in", "normalize/record/json.py:AutoJsonRecord.convert_json_key_out", "normalize/record/json.py:NCAutoJsonRecord"]}
{"id": "C41", "title": "cast undoes visit", "statement": "For records and typed collections, nested to any depth, without None values, without unfiltered extraneous slots and without type unions, VisitorPattern.cast(T, VisitorPattern.visit(x)) == x for x of type T. A slot or list item holding None is dropped, records of a subclass of the declared class come back as the declared class, records in slots without declared type come back as dicts, and a record class without properties is not cast at all (findings).", "quantifier": "all such values", "why_tests_cant": "All nested values.", "anchors": ["normalize/visitor.py:VisitorPattern.visit", "normalize/visitor.py:VisitorPattern.cast", "normalize/visitor.py:VisitorPattern.map"]}
{"id": "C42", "title": "Visit output is exactly the filtered part of the input", "statement": "With a visit filter, the output contains a slot path iff the filter matches it and the slot is set; other slots have no influence on the output; the reported position of every visited value is its actual path from the root. Items of collections are not filtered, items left out shift those behind them, and a filter of no paths filters nothing (findings).", "quantifier": "all values and filters", "why_tests_cant": "Non-interference over all unselected values.", "anchors": ["normalize/visitor.py:Visitor.is_filtered", "normalize/visitor.py:VisitorPattern.map_record", "normalize/visitor.py:VisitorPattern.map_collection"]}
{"id": "C43", "title": "Pickling preserves state", "statement": "Unpickling a pickled record restores every slot without running coercions, checks or defaults; a pickled generic collection restores its items but silently drops extra properties (finding).", "quantifier": "all records and collections", "why_tests_cant": "All states.", "anchors": ["normalize/record/__init__.py:Record.__getstate__", "normalize/record/__init__.py:Record.__setstate__", "normalize/coll.py:_Generic.__reduce__", "normalize/coll.py:_GenericPickler"]}
{"id": "C44", "title": "Generic collection types are unique per item type", "statement": "list_of(T)/dict_of(T) return the same type every time, in any interleaving with other requests; two distinct item types with the same module and name are rejected rather than confused; the returned type's items are exactly T.", "quantifier": "all request histories", "why_tests_cant": "Global cache under arbitrary histories.", "anchors": ["normalize/coll.py:_make_generic", "normalize/coll.py:list_of", "normalize/coll.py:dict_of"]}
{"id": "C45", "title": "Path parsing cost", "statement": "Parsing an (invalid) quoted path key of length n can take time exponential in n: the number of ways the parser tries a text [' followed by n ordinary characters without a closing bracket is at least 2^(n-1) (finding: denial of service by a short path).", "quantifier": "all n", "why_tests_cant": "A growth rate is a statement about all n.", "anchors": ["normalize/selector.py:_PATH_TOK", "normalize/selector.py:_MFS_PATH_TOK"]}
{"id": "C46", "title": "Field selector construction validates its elements", "statement": "FieldSelector(iterable) raises ValueError exactly when the iterable contains a truthy element that is neither str, int nor None; otherwise the selector contains exactly the given elements. A falsy invalid element (0.0, (), b'') is let through (finding).", "quantifier": "all iterables", "why_tests_cant": "The validation tests truth values of elements; all combinations cannot be listed.", "anchors": ["normalize/selector.py:FieldSelector.__init__"]}
{"id": "C47", "title": "Patching by a multi field selector", "statement": "mfs.patch(target, source), when it returns, makes every selected field of the target read as what the target's types keep of the source's value, and removes those the source lacks; whether or not it returns, every field that could be read and parts ways with all selected paths reads as before; if the source cannot be read for another reason than a missing field, the target is not touched.", "quantifier": "all records, sources and name selectors", "why_tests_cant": "The selected fields interact (posting one may create parents of others); all orders and shapes.", "anchors": ["normalize/selector.py:MultiFieldSelector.patch", "normalize/selector.py:FieldSelector.post", "normalize/selector.py:FieldSelector.delete"]}
{"id": "C48", "title": "Structured exceptions carry their message and their data", "statement": "Wherever the library raises one of its structured exceptions, with whatever printable values, it is that exception that is raised; its text is the message of its class with every field replaced, every keyword passed is an attribute of it, and it can be caught as NormalizeError; a keyword that is missing gives KeywordExceptionFormatError naming it. Two places name classes that do not exist, one passes text where the message needs a class, item type unions break the message, the text given to FieldSelectorException is lost, and exceptions with fields cannot be copied or pickled (findings).", "quantifier": "all raise sites and all values passed", "why_tests_cant": "Error paths are rarely exercised, and not with all kinds of values.", "anchors": ["normalize/exc.py:StringFormatException", "normalize/exc.py:KeywordExceptionFormatError", "normalize/visitor.py:VisitorPattern.unpack", "normalize/coll.py:Collection.coerce_value", "normalize/selector.py:FieldSelector.put"]}
{"id": "C49", "title": "Dates stay dates, and what is written is read back", "statement": "Whatever is assigned to a DateProperty, an accepted value is a date and not a datetime: datetimes lose their time, text is parsed; a DatetimeProperty turns a date into its midnight. Without dateutil exactly the ASCII texts of the six documented layouts (dashes, T and blanks apart) of existing dates and times are accepted, as what they say. What JSON output writes for a date, and for a time without microseconds and zone, is read back as the same; with microseconds or a zone it is refused, not misread. Dates without leading zeros can be read as other dates, and the Z of UTC is dropped (findings).", "quantifier": "all assigned values, all parsers, all valid dates and times, all ASCII texts", "why_tests_cant": "All dates, times and texts would have to be tried.", "anchors": ["normalize/property/types.py:coerce_date", "normalize/property/types.py:coerce_datetime", "normalize/property/types.py:parse_datetime", "normalize/property/types.py:DateProperty", "normalize/property/types.py:DatetimeProperty"]}
{"id": "C50", "title": "What repr prints is Python source for the same value", "statement": "For every record, list or dict collection and JSON list whose classes are in scope under their own names and whose properties hold accepted values, however nested in each other and in lists, tuples and dicts, repr gives text which Python reads back as an equal value; so different values print differently. Every property that is set is printed under its name. Text of any Unicode characters is quoted and escaped correctly. A JsonRecordDict can not be printed at all, deleted defaults come back, values of the wrong type are coerced on the way, and properties named like constructor parameters are lost (findings).", "quantifier": "all types, all rebuildable values of any nesting, all Unicode text, all notions of printable characters", "why_tests_cant": "Nested values and texts are infinitely many; quoting faults show for particular characters only.", "anchors": ["normalize/record/__init__.py:Record.__repr__", "normalize/coll.py:ListCollection.__repr__", "normalize/coll.py:DictCollection.__repr__", "normalize/record/json.py:JsonRecordList.__repr__", "normalize/record/json.py:JsonRecordDict.__repr__"]}
{"id": "C51", "title": "The catalogue of types is complete and exact", "statement": "VisitorPattern.reflect of a type describes everything reachable from it through shown properties and item types, each at its place with the right names, and nothing else; it ends exactly if no way through the types goes on for ever. Whatever visiting an instance shows is described at the place its position says, if records are held by properties declared for them. Types that can contain themselves exhaust the stack, and of a union of record types only the first is described (findings).", "quantifier": "all type graphs, all ways through them, all values", "why_tests_cant": "Type graphs and ways through them are infinitely many.", "anchors": ["normalize/visitor.py:VisitorPattern.reflect", "normalize/visitor.py:VisitorPattern.scantypes", "normalize/visitor.py:VisitorPattern.propinfo", "normalize/visitor.py:VisitorPattern.itemtypes", "normalize/visitor.py:VisitorPattern.typeinfo", "normalize/visitor.py:VisitorPattern.map_type_union"]}
{"id": "C52", "title": "Reports of differences say exactly what was found", "statement": "str(diff) has a heading for each kind of difference found (apart from MOVED), and what is printed below it reads back as a selector of exactly the fields concerned. The result of any comparison prints, whatever the options, if no dict has the key None. The text of one entry names the longer path if one extends the other, else both. The JSON form of a JsonDiff reads back as the same entries in the same order. MOVED entries do not show, entries below an unchanged item are hidden, and a JsonDiff read back from JSON does not print (findings).", "quantifier": "all lists of entries, all objects, options, orders of sets", "why_tests_cant": "Tests can print some reports; that the printed selectors denote exactly the reported fields is about all paths.", "anchors": ["normalize/diff.py:Diff.__str__", "normalize/diff.py:DiffInfo.__str__", "normalize/diff.py:_coerce_diff", "normalize/diff.py:DiffTypes", "normalize/record/json.py:JsonDiffInfo.json_data", "normalize/record/json.py:JsonDiff", "normalize/selector.py:MultiFieldSelector.path"]}
{"id": "C53", "title": "Numeric and text properties convert exactly what they claim", "statement": "Text given to an integer property is accepted exactly if it is an integer literal (optional white space, sign, digits with single underscores, Unicode digits) and then gives that integer, of any size; a number property tries that first and then float(). str() of an integer reads back as the integer. An integer becomes the nearest-even float within relative error 2^-53, exact exactly if it has at most 53 significant bits, refused beyond the largest float; a float loses its fractional part; values already of the type are kept. A text property takes nearly everything, None included (finding).", "quantifier": "all texts, all integers, all binary64 numbers, all Unicode tables, checks, defaults and kinds of property", "why_tests_cant": "Tests can try some literals; exactness for all texts and all integers cannot be enumerated.", "anchors": ["normalize/property/types.py:IntProperty", "normalize/property/types.py:LongProperty", "normalize/property/types.py:IntegerProperty", "normalize/property/types.py:NumberProperty", "normalize/property/types.py:FloatProperty", "normalize/property/types.py:StringProperty", "normalize/property/types.py:UnicodeProperty", "normalize/property/types.py:coerce_number", "normalize/property/__init__.py:make_property_type", "normalize/property/__init__.py:Property.type_safe_value"]}
{"id": "C54", "title": "Collection attributes hold collections of what was declared", "statement": "ListProperty, DictProperty and CollectionProperty are accepted exactly for matching container, concrete type and item type; the attribute then holds, after any program of assignments and collection operations through any reference, a collection of a class derived from the declared one whose items are all of the item type. A collection of the right class is stored itself, anything else as a fresh copy; converting twice is converting once. A typed dict of another class is silently replaced by an empty one (finding).", "quantifier": "all class hierarchies, item coercions, programs over any number of records and shared collections", "why_tests_cant": "Tests can assign some collections; sharing and arbitrary interleavings of operations cannot be enumerated.", "anchors": ["normalize/property/coll.py:CollectionProperty", "normalize/property/coll.py:SafeCollectionProperty", "normalize/property/coll.py:ListProperty", "normalize/property/coll.py:DictProperty", "normalize/coll.py:Collection.__init__", "normalize/property/__init__.py:SafeProperty.__set__"]}
{"id": "C55", "title": "Attributes of AutoJsonRecord are read from the document and never written", "statement": "Reading an attribute of an AutoJsonRecord gives the declared property's value if there is one (and whatever the document has, AttributeError or the 'none' of a V1 property if it is not set), or the value the document had under that name if neither a property, an instance attribute nor an attribute of the class has it; any other name raises KeyError, not AttributeError, so hasattr() raises too. No sequence of attribute assignments and deletions changes the record: declared names and deletions raise, unknown names raise KeyError, and assigning to a key of the document silently does nothing (finding).", "quantifier": "all classes, documents, names, values and sequences of assignments and deletions", "why_tests_cant": "Tests pick a few attribute names; that no assignment ever has an effect is a statement about all of them.", "anchors": ["normalize/record/json.py:AutoJsonRecord.__getattr__", "normalize/record/json.py:AutoJsonRecord.__setattr__", "normalize/record/json.py:AutoJsonRecord.__delattr__", "normalize/property/__init__.py:LazyProperty.__get__"]}
{"id": "C56", "title": "Properties of several types are visited as the first type that works", "statement": "For a property whose isa is a tuple, a visit or cast tries the Record classes of the tuple in order, only those the value is an instance of if there are any; the first mapping that is true is the result, a TypeError or a false mapping passes on to the next class, any other exception ends the visit, and apply is called only if the value is an instance of none. A value of exactly one class of the tuple is mapped as that class wherever it stands; what was visited casts back if its class is the first one. Subclasses behind their base class, later classes and plain text lose data or raise on the way back (findings).", "quantifier": "all tuples of types, values, positions and arbitrary recursive mappings; the round trip for every value that holds in the sense of C41", "why_tests_cant": "Which class wins depends on the order, the instance tests, truth and exceptions of all mappings at once; tests cover single combinations.", "anchors": ["normalize/visitor.py:VisitorPattern.map_type_union", "normalize/visitor.py:VisitorPattern.map_prop", "normalize/visitor.py:VisitorPattern.grok", "normalize/exc.py:VisitorGrokRecordError"]}
{"id": "C57", "title": "Field selectors change one place of one object, however it is shared", "statement": "On objects that may be shared or contain themselves: get gives the very object the path leads to and changes no object. put through a path without wildcards changes one place of one object only; every path from any object that does not pass this place leads where it led, and every path to this object sees the new value. What was put is what is got if the object changed is not reached from itself; on circles it need not be (finding). delete removes one place of one object or finds the attribute missing; a put or delete that raises changes nothing. A wildcard put stores one and the same value in all items, which share it afterwards.", "quantifier": "all heaps of records, lists and dicts with arbitrary references, all roots and paths, arbitrary classes", "why_tests_cant": "Sharing and cycles multiply the paths that a change can be seen through; tests use trees.", "anchors": ["normalize/selector.py:FieldSelector.get", "normalize/selector.py:FieldSelector.put", "normalize/selector.py:FieldSelector.delete", "normalize/selector.py:_try_index"]}
{"id": "C58", "title": "Filtered copies are independent; patching with copies leaves the source alone", "statement": "On objects that may be shared or contain themselves: get of a multi field selector changes nothing and its result reaches new objects only, so a later change of the copy is not seen in the original nor the reverse. patch with copy= changes only objects reached from the target, whatever target and source share, so a source apart from the target keeps all its paths; delete changes only objects reached from what it is given. Without copy= the target's field is the source's own object, and patch can even change a source that shared nothing with the target (finding). A filtered copy does not keep sharing, and default objects stay shared (findings).", "quantifier": "all heaps, selectors, targets and sources; constructors, coercions and the copy function arbitrary as long as they bring in only what they were given, made or have as defaults", "why_tests_cant": "Independence is about all later changes through all paths; tests compare values once.", "anchors": ["normalize/selector.py:MultiFieldSelector.get", "normalize/selector.py:MultiFieldSelector.patch", "normalize/selector.py:MultiFieldSelector.delete", "normalize/selector.py:FieldSelector.post"]}
{"id": "C59", "title": "Equal objects have no differences", "statement": "If two objects are == and the comparison by diff_iter succeeds, every entry it reports is one of the NO_CHANGE or MOVED entries asked for, so with the default options nothing is reported. This takes that collections set no properties of their own, that items of plain lists and dicts have a hash, that no two records in a dict collection have the same identity, and that == records in a collection have the same identity, which the identity of the library gives to records without dicts. Each of these is needed; and the converse is false: the order of a list, the keys of a dict and white space make objects != without a difference (findings).", "quantifier": "all classes, objects and options without extraneous, duck_type, filter, ignore_empty; compare_as functions that respect ==", "why_tests_cant": "Tests compare an object with itself or with a clear change; they do not look for equal objects held differently.", "anchors": ["normalize/diff.py:diff_iter", "normalize/diff.py:compare_record_iter", "normalize/diff.py:compare_collection_iter", "normalize/diff.py:compare_list_iter", "normalize/record/__init__.py:Record.__eq__", "normalize/coll.py:Collection.__eq__", "normalize/identity.py:record_id"]}
{"id": "C60", "title": "The identity of a record tells exactly what == tells", "statement": "For records and list collections of classes without primary key, holding values of exactly the declared classes and no None, the identities (__pk__) are equal exactly if the records are; with a primary key, exactly if its fields are set alike and have equal values. Each condition is needed: None and unset, the own properties of a sub-class, the keys of dict collections, the classes of items of several types and everything that is no record in a property declared for a record or something else do not show in the identity (findings).", "quantifier": "all classes, records nested to any depth", "why_tests_cant": "Tests look at the identities of a few records; that no two different records share one is a statement about all pairs.", "anchors": ["normalize/identity.py:record_id", "normalize/record/__init__.py:Record.__pk__", "normalize/record/__init__.py:Record.__eq__"]}
{"id": "C61", "title": "apply_empty_slots hands every empty slot to the hook", "statement": "With apply_empty_slots, a visit that succeeds has called the hook for every property that is shown and is not of a record class, with its value or, where it is not set, with the exception, and for nothing else; what the hook returned is found in the output under the names of the properties on the way unless it is left out. If no property of a record class is unset, the default hook makes the option a no-op; without the option the descent is the one of C41 and C42. The visit ends if no class is declared to contain itself. Unset properties of a record class are not handed to the hook but shown as empty records, unset collections make the visit fail, classes that contain themselves make it recurse for ever, and casting fails where the key of a record is missing (findings).", "quantifier": "all classes, values, filters, hooks, any nesting", "why_tests_cant": "Which slots are empty, and where, has no bound; tests exercise the option on one flat record if at all.", "anchors": ["normalize/visitor.py:Visitor.__init__", "normalize/visitor.py:VisitorPattern.map_record", "normalize/visitor.py:VisitorPattern.map_prop", "normalize/visitor.py:VisitorPattern.unpack", "normalize/visitor.py:VisitorPattern.grok", "normalize/visitor.py:VisitorPattern.apply"]}
{"id": "C62", "title": "repr of a selector is source for the same selector", "statement": "eval(repr(fs)) is a FieldSelector with the same elements, for any names (quotes, control characters, empty ones, characters outside ASCII), any integers and wildcards; so different selectors have different reprs. eval(repr(mfs)) is a MultiFieldSelector that contains the same paths and iterates over the same selectors, whatever the iteration order of sets, for every selector a program can build: also the empty one and the complete one, which from_path cannot read back or that are written with a trailing comma. A MultiFieldSelector built from paths iterates exactly over those that do not lie within others.", "quantifier": "all selectors, all names, all set iteration orders", "why_tests_cant": "Names, nesting and the number of alternatives have no bound; the tests compare one example text.", "anchors": ["normalize/selector.py:FieldSelector.__repr__", "normalize/selector.py:MultiFieldSelector.__repr__", "normalize/selector.py:MultiFieldSelector.__init__", "normalize/selector.py:MultiFieldSelector.__iter__"]}
{"id": "C63", "title": "Patching a record by the paths of a comparison removes the differences", "statement": "For records a and b, MultiFieldSelector(*(x.base for x in diff(a, b))).patch(a, b) succeeds and afterwards a agrees with b, so that comparing again reports nothing; in every record of a that corresponds to one of b (reached by the same property names through records of the same classes) exactly the slots whose paths were reported hold what b has, those b lacks being deleted, and all others hold what they held before. This takes that lists and dicts found under corresponding slots agree. Where items of lists are gone or records of collections have changed places it is false: items are duplicated, FieldSelectorKeyError is raised, or another record's value is assigned.", "quantifier": "all pairs of records nested to any depth, all set iteration orders", "why_tests_cant": "Which slots differ, at which depths and in which order they are patched ranges over all subsets of a record tree; the tests patch a few fixed selectors.", "anchors": ["normalize/selector.py:MultiFieldSelector.patch", "normalize/selector.py:MultiFieldSelector.__init__", "normalize/diff.py:diff_iter", "normalize/diff.py:compare_record_iter"]}
{"id": "C64", "title": "Hooks of a visit know where they are", "statement": "Throughout every call of a hook (unpack, collect, reduce, apply, or the getters they return) visitor.cue is the path from the visited value to the value the hook is called for, and no hook is called for a property that the filter excludes at its place, however hooks run the generators they are given: partly, interleaved, after the call has returned, with exceptions and visits within visits. The condition is that a generator is begun (not finished) before the call of map that made it returns. Without it, while a hook runs its position still never changes, and the assertion in Visitor.pop never fails; but a generator begun later gives wrong positions and visits what is filtered.", "quantifier": "all hooks that do not call push and pop themselves, all values and types, all interleavings", "why_tests_cant": "The order in which hooks run generators is up to the user's code; a test has one order, and those of the project use the default hooks, which run them at once.", "anchors": ["normalize/visitor.py:Visitor.copy", "normalize/visitor.py:Visitor.push", "normalize/visitor.py:Visitor.pop", "normalize/visitor.py:Visitor.is_filtered", "normalize/visitor.py:VisitorPattern.map", "normalize/visitor.py:VisitorPattern.map_record", "normalize/visitor.py:VisitorPattern.map_collection", "normalize/visitor.py:VisitorPattern.map_type_union"]}
{"id": "C65", "title": "Looking at records does not change what they are", "statement": "Whatever code reads properties of records, however often, in whichever order and however lazy defaults depend on each other: only empty slots of lazy properties are filled, with what the property is if defaults are computed anew at each read; and any answer (a value or an exception) is the same before and after any other looking, in particular those of ==, hash and visit (JSON output). repr and pickling are not such answers: they show which slots have been computed. And a computed default stays when what it was computed from is assigned, so looking before an assignment changes answers after it (findings).", "quantifier": "all programs that read properties, all graphs of records, all lazy defaults that only read", "why_tests_cant": "Every order of reads and every dependency among lazy defaults would have to be tried.", "anchors": ["normalize/property/__init__.py:LazyProperty.__get__", "normalize/property/__init__.py:LazySafeProperty.__get__", "normalize/property/__init__.py:ROLazyProperty.__get__", "normalize/record/__init__.py:Record.__eq__", "normalize/record/__init__.py:Record.__hash__", "normalize/record/__init__.py:Record.__repr__", "normalize/identity.py:record_id", "normalize/visitor.py:VisitorPattern.map_record"]}
{"id": "C66", "title": "A property type supplies its defaults as if they were written in the declaration", "statement": "A type made by make_property_type from Property, with a trait name that sorts first among those of the type which a declaration selects: declaring a property with it, at any later time and with any arguments, gives the type, the registry and the arguments (or the exception) that writing the missing defaults into the declaration gives. Of written arguments none is lost and none replaced (a default that looks like a none becomes v1_none), and an argument that was neither written nor a default of some class never appears. If the trait name does not sort first the claim is false: a default which no class behind the type accepts makes every declaration a TypeError, so with the anonymous names (trait1, ...) types with a default for json_out, lazy or compare_as cannot be used at all, and a written default that looks like a none loses against the type's (findings).", "quantifier": "all trait names, defaults, arguments, values, and sequences of declarations in between", "why_tests_cant": "Each combination of traits composes a new class with its own method resolution order; the tests try a few combinations.", "anchors": ["normalize/property/__init__.py:make_property_type", "normalize/property/__init__.py:Property.__init__", "normalize/property/__init__.py:LazyProperty.__init__", "normalize/property/__init__.py:V1Property.__init__", "normalize/property/__init__.py:DiffasProperty.__init__", "normalize/property/json.py:JsonProperty.__init__", "normalize/property/meta.py:MetaProperty.__call__"]}
{"id": "C67", "title": "Functions in declarations are called with arguments which they take", "statement": "A function given as default= is accepted iff it can be called with no argument or with one; each use of the default then is a call that the function accepts, which passes the record if one parameter has to be given and nothing otherwise. A function given as compare_as= is accepted iff the parameters that have to be given are at most self and one other; each comparison then passes the record as self and the value as the other, just as far as they have to be given. A json_data() method is passed extraneous= iff it has such a parameter, and the caches per type do not change the outcome of any sequence of calls if json_data is a method of the class. Not true of functions with keyword-only parameters, of bound methods, classes and callable objects (accepted, then called wrongly), of json_data with any other keyword-only parameter, and of json_data attributes of single objects (findings).", "quantifier": "all signatures of Python functions, all arguments, all sequences of objects converted", "why_tests_cant": "Signatures combine positional-only, optional, variadic and keyword-only parameters; the tests have five of them.", "anchors": ["normalize/property/__init__.py:Property.func_info", "normalize/property/__init__.py:Property.__init__", "normalize/property/__init__.py:Property.get_default", "normalize/property/__init__.py:DiffasProperty.__init__", "normalize/diff.py:DiffOptions.normalize_object_slot", "normalize/record/json.py:_json_data"]}
{"id": "C68", "title": "An attribute of a record class is the property of that name", "statement": "For any classes, however they inherit from each other: if looking a name up on a record class along Python's method resolution order finds a property, it is the one which the class's properties list under that name. Conversely each listed name is an attribute of the class, and it is that property if no class in the resolution order uses the name for something else; all properties of all classes in the resolution order are listed. So in programs that keep the names of properties apart from other names, accessors' and those of the library included, the two views agree. Not true of property objects in plain mixins, of names used for other attributes in mixins, of a property called _sorted_properties, and of the accessors of overridden properties (findings).", "quantifier": "all sequences of class statements, with any bases and bodies", "why_tests_cant": "All inheritance graphs: the tests have one with two record bases.", "anchors": ["normalize/record/meta.py:RecordMeta.__new__", "normalize/property/__init__.py:Property.__get__", "normalize/property/__init__.py:Property.aux_props"]}
{"id": "C69", "title": "Marshalling out gives JSON documents, without what is extraneous if so asked", "statement": "Whatever is marshalled out, if that succeeds at all, gives a JSON document: null, booleans, numbers (integers of at most 50 bits, others as text), text, lists and objects with distinct keys, at any depth, provided the json_out functions return such. A document is left as it is, so marshalling twice is the same as once. Without extraneous data one gets exactly what one would get with it if the extraneous attributes were not set, in the record and in all records within. Not true of what json_out functions return: it is passed on unconverted, and they are not told whether extraneous data is wanted (findings).", "quantifier": "all values, all record types", "why_tests_cant": "All nested values and class definitions; the tests look at single documents.", "anchors": ["normalize/record/json.py:to_json", "normalize/record/json.py:_json_data", "normalize/record/json.py:JsonRecord.json_data", "normalize/property/json.py:JsonProperty.to_json"]}
{"id": "C70", "title": "What was loaded from a document can be written and loaded again", "statement": "If a JSON record, list or dict class loads a document, or a text parsed to one, the result can be written with json_data, unknown keys included, and loading what was written gives the same record again, through any nesting of such classes. This holds if every value the classes' properties accept from a document is written in a form that reads as that value again; properties without a type, and properties of a type whose instances are JSON values, satisfy this whatever they coerce. Not true of a property with a default whose coercion gives None: the attribute is unset after the first load and has its default after the second (finding).", "quantifier": "all documents, all sets of class definitions satisfying the stated condition, all depths", "why_tests_cant": "All documents and nestings of classes; the tests load and write a few documents.", "anchors": ["normalize/record/json.py:from_json", "normalize/record/json.py:json_to_initkwargs", "normalize/record/json.py:JsonRecord", "normalize/record/json.py:JsonRecordList", "normalize/record/json.py:JsonRecordDict", "normalize/property/__init__.py:Property.init_prop"]}
{"id": "C71", "title": "Where stricter comparison options find no difference, looser ones find none", "statement": "Let one set of comparison options be looser than another: it takes for the same all texts the other does, takes for empty all the slots the other does, and compares no attribute the other does not (extraneous attributes, a compare filter). If two objects of the same class show no difference under the stricter options, they show none under the looser ones; likewise each attribute of two records on its own. Ignoring blanks, case or Unicode normal forms in addition is looser. Holds of objects through any nesting of records, lists, dicts, tuples and collections of plain values with hashable items; duck typing off, moved items not asked for. Not true of collections of records, as keys that become the same lead to other matches, nor of items without a hash, which are compared by their repr() with text as it was; nor is the number of differences smaller (findings).", "quantifier": "all objects satisfying the stated condition, all pairs of options, all orders of iteration of sets", "why_tests_cant": "Pairs of option sets and all pairs of objects; the tests compare particular objects under particular options.", "anchors": ["normalize/diff.py:DiffOptions", "normalize/diff.py:DiffOptions.normalize_text", "normalize/diff.py:compare_record_iter", "normalize/diff.py:compare_list_iter", "normalize/diff.py:diff_iter"]}
{"id": "C72", "title": "A visit follows its hooks, whatever they are", "statement": "VisitorPattern.map with any functions in place of unpack, apply, collect and reduce: every value is unpacked once and then either the visit stops there (StopVisiting), with the value given as the result, or its items are visited and collected, then its properties visited, and it goes once to reduce or to apply, at the position where it was unpacked. Properties which the options leave out are never read. The visit ends with an exception only if a hook, the iteration over items or the reading of an attribute raised it. A translation of the results gives the same when done by the hooks as when done after the visit. With the default hooks, this is the visit of C41 and C42. Not true: that what collect returns goes to reduce; if it is None, apply gets the whole collection (finding).", "quantifier": "all hooks (as functions), values, types, options and filters", "why_tests_cant": "All hooks; the tests use a handful of visitor classes.", "anchors": ["normalize/visitor.py:VisitorPattern.map", "normalize/visitor.py:VisitorPattern.map_record", "normalize/visitor.py:VisitorPattern.map_collection", "normalize/visitor.py:VisitorPattern.map_prop", "normalize/visitor.py:VisitorPattern.map_type_union", "normalize/visitor.py:VisitorPattern.StopVisiting", "normalize/visitor.py:Visitor"]}
{"id": "C73", "title": "A field selector has its path to itself", "statement": "However field selectors are made from each other (the constructor, +, slices, pickle, deepcopy) and changed (add_property, add_index, add_full_collection, extend, also with itself), each has a path of its own: a program does just what it says about paths, an operation which changes one selector changes no other, and operations which raise change nothing. Whatever is done, paths only grow at their ends and contain only acceptable elements. == is sameness of paths and != its opposite. Not true with copy.copy, whose result shares its path with the original forever, nor that an equal selector is found in a set or dict (findings).", "quantifier": "all programs of such operations, of any length", "why_tests_cant": "All programs; a shared list only shows after a later change of another selector.", "anchors": ["normalize/selector.py:FieldSelector.__init__", "normalize/selector.py:FieldSelector.add_property", "normalize/selector.py:FieldSelector.add_index", "normalize/selector.py:FieldSelector.add_full_collection", "normalize/selector.py:FieldSelector.extend", "normalize/selector.py:FieldSelector.__add__", "normalize/selector.py:FieldSelector.__getitem__", "normalize/selector.py:FieldSelector.__getnewargs__", "normalize/selector.py:FieldSelector.__eq__", "normalize/selector.py:FieldSelector.__ne__", "normalize/selector.py:FieldSelector.__hash__"]}
{"id": "C74", "title": "An identity is computed in as many calls as there are objects, with one class of records for each property", "statement": "If at most one class of records is declared for each property and item, records occur only where one is declared, and classes have a property that counts, then computing the identity of a record, or its hash, calls record_id at most once for each object in it. Otherwise not: with two classes of records declared for a property, or for hash() with a record in a property declared as some other class (such as object), the number of calls doubles with every level of records (findings).", "quantifier": "all classes, records of any depth and width, all atoms and hash functions", "why_tests_cant": "The blow-up needs deep records; a test of small ones never notices, and no test shows a bound.", "anchors": ["normalize/identity.py:record_id", "normalize/record/__init__.py:Record.__hash__"]}
{"id": "C75", "title": "Pickling and deep copying keep who refers to whom, unless a generic collection is met while it is copied", "statement": "Pickling and unpickling, or deep copying, an object in any graph of records, collections, lists and dicts which refer to and share each other, gives the same graph: one to one, with the same classes, names, keys and atoms, and corresponding references. Asked is that a generic collection (list_of, dict_of) which leads back to itself does so through an object without which one does not come to it from the object pickled; so nothing is asked without such cycles, nor for a record through which all of them go. But a generic collection pickled by itself whose items lead back to it (children which know their parent) always comes back empty, and its deep copy is not the one its items refer to (findings).", "quantifier": "all graphs of objects of any size, with any sharing and cycles", "why_tests_cant": "All graphs; pickling the parent works, pickling its list of children silently loses them.", "anchors": ["normalize/record/__init__.py:Record.__getnewargs__", "normalize/record/__init__.py:Record.__getstate__", "normalize/record/__init__.py:Record.__setstate__", "normalize/coll.py:_Generic.__reduce__", "normalize/coll.py:_GenericPickler"]}
{"id": "C76", "title": "Threads sharing a slot read only what was put there, and agree once it is set", "statement": "Whatever threads which read, assign and delete a slot of one record (or ask for one generic type) do in whatever order: a read returns a value which was assigned or made by the default before. As long as nobody deletes, reading a lazy property and asking for a generic type raise nothing, and reading any other property raises nothing but AttributeError. Once the slot is set and no thread is about to store a default, all reads return what is there until somebody assigns or deletes; so if the first read is done alone, the default is called once and all threads get the same value. But two concurrent first reads call the default twice and may return different values, also for a read-only lazy property; two concurrent list_of calls may return different types; an assignment while the default is computed is lost; a read during a deletion raises KeyError, not AttributeError.", "quantifier": "all schedules of any number of threads, any defaults", "why_tests_cant": "Interleavings cannot be enumerated, and those that matter are rare when run.", "anchors": ["normalize/property/__init__.py:Property.__get__", "normalize/property/__init__.py:LazyProperty.__get__", "normalize/property/__init__.py:ROLazyProperty.__get__", "normalize/property/__init__.py:LazySafeProperty.__get__", "normalize/property/__init__.py:SafeProperty.__delete__", "normalize/coll.py:_make_generic"]}
{"id": "C77", "title": "Marshalling, hashing, printing and comparing end exactly for objects which do not lead to themselves", "statement": "For any graph of records, lists and dicts: to_json and the identity (hash) of an object need exactly the depth of the longest path through the properties they look at, so they raise RecursionError for every recursion limit if and only if the object leads to one that leads to itself through such properties, and otherwise the number of objects is depth enough. repr fails if and only if there is a cycle without a dict (Python prints dots for a dict which is being printed). == ends if one of the two leads to no cycle; of an object and a copy it is true then, and otherwise there is no answer whatever the limit. Of different objects with cycles, whether == ends depends on the order of the declarations; and shared objects are done again for each path, 2^k times with k+1 objects.", "quantifier": "all finite graphs of objects, all recursion limits", "why_tests_cant": "Tests use trees; the graphs with which a function ends, and the depths, cannot be enumerated.", "anchors": ["normalize/record/__init__.py:Record.__repr__", "normalize/record/__init__.py:Record.__eq__", "normalize/record/__init__.py:Record.__hash__", "normalize/coll.py:Collection.__eq__", "normalize/coll.py:ListCollection.__repr__", "normalize/coll.py:DictCollection.__repr__", "normalize/record/json.py:to_json", "normalize/identity.py:record_id"]}
{"id": "C78", "title": "A list collection has its items to itself", "statement": "Whatever a program does with lists and list collections (constructing collections from lists and from each other, append, extend, slice assignment and deletion, reverse, +, slices, pickling, changing lists afterwards): a method changes the contents of the object it is called on and of no other, in the way the Python list operation with coerced items would, and what an operation makes has contents of its own; a failing method other than extend changes nothing. Extending by another collection ends; but coll.extend(coll) never ends for a non-empty collection (list.extend doubles). copy.copy of a collection of a declared class shares its items with the original for ever, unlike that of a generic collection.", "quantifier": "all programs over any lists and collections, any item types and coercions", "why_tests_cant": "Sharing shows only in later changes through other references; all pairs of objects and histories are meant.", "anchors": ["normalize/coll.py:ListCollection.extend", "normalize/coll.py:ListCollection.__setitem__", "normalize/coll.py:ListCollection.__add__", "normalize/coll.py:Collection.__init__", "normalize/coll.py:_Generic.__reduce__", "normalize/record/__init__.py:Record.__getstate__"]}
{"id": "C79", "title": "With recurse, collections of records are compared place by place", "statement": "With the option recurse (and no filter, duck typing or ignored empty slots and items) a comparison which ends reports exactly the differences between what is found at the same place: slots as without the option; of collections of records the items at positions or keys which both have are compared with each other, the others are removed or added. The paths of an entry agree up to the last element, and entirely for modified values. Which records are identified with which, fuzzy matching and the orders of sets make no difference. Lists and collections without item type are still compared as multisets.", "quantifier": "all values and options as said, all identities, all set orders", "why_tests_cant": "Compares all pairs of nested values; the tests for recurse are few and look at the number of entries.", "anchors": ["normalize/diff.py:compare_collection_iter", "normalize/diff.py:compare_record_iter", "normalize/diff.py:_diff_iter"]}
{"id": "C80", "title": "With duck_type, a comparison looks at the base's properties only and passes over hollow values and mismatched kinds", "statement": "With the option duck_type (and no filter, recurse or ignored empty slots and items) a comparison of a record or list collection with anything which ends reports, per property of the base's class and under its name: nothing if the slot is missing on both sides; if it is missing on one side exactly one entry, removed or added, unless the value on the other side is hollow (an empty list or dict, or a record or collection with nothing but hollow parts), when no change is reported; if both are present and the base's is a list, dict, record or collection, what comparing the two reports; if only the other's is one, nothing whatever the two are; otherwise a modification iff the two are not equal. Comparing a list, dict, record or collection with nothing reports only removals (or additions), and none iff it is hollow.", "quantifier": "all values and options as said, all identities, all set orders, any nesting", "why_tests_cant": "The hollow values form a recursive family and the mismatches concern pairs of kinds of values; the tests for duck_type compare records which share their properties.", "anchors": ["normalize/diff.py:compare_record_iter", "normalize/diff.py:_diff_iter", "normalize/diff.py:compare_collection_iter", "normalize/diff.py:compare_list_iter"]}
{"id": "C81", "title": "With ignore_empty_slots, slots holding '' or None compare as if deleted, and vacant values as missing", "statement": "With the option ignore_empty_slots (and no filter, recurse, duck_type or ignore_empty_items) a comparison of two records or list collections of a class reports, per property and under its name: nothing if on each side the slot is missing or holds None or text which normalises to ''; if that is so of one side exactly one entry, removed or added, unless the value on the other side is vacant (a list or dict with nothing but such items, or a record or collection with nothing but such or vacant parts), when no change is reported; else what comparing the two reports if they are lists, dicts, records or collections of the same type, and otherwise a modification iff they are not equal. Records whose slots look the same in this sense compare the same, entry for entry; so every slot with None or '' may as well be deleted. Comparing a list, dict, record or collection with nothing reports only removals (or additions), and none iff it is vacant.", "quantifier": "all values and options as said, all identities, all set orders, any nesting", "why_tests_cant": "The vacant values form a recursive family; the tests for ignore_empty_slots compare a few records with empty texts.", "anchors": ["normalize/diff.py:compare_record_iter", "normalize/diff.py:normalize_val", "normalize/diff.py:value_is_empty", "normalize/diff.py:compare_list_iter", "normalize/diff.py:compare_collection_iter"]}
{"id": "C82", "title": "With ignore_empty_items, records whose key fields are all blank compare as if they were not in the collection", "statement": "With the option ignore_empty_items (and no filter or duck_type) an item of a collection of records is left out of a comparison iff every field of its primary key (or, without one, every field which is not extraneous) is not set, None, text which normalises to '', a tuple of such, or declared to hold a record of which the same is true. Comparing two dict collections, or one with nothing, gives the same entries in the same order as comparing them with these items deleted; in a comparison of list collections no entry is at the position of such an item, on either side, and (without moves, recurse and compare_as of the collection's properties) its entries are, in order, those of comparing the lists with these items deleted, each with the positions its items have in the full lists.", "quantifier": "all collections whose items have identities, all other options, all set orders, any nesting of records in keys; key fields without compare_as, declared with no record type or exactly one", "why_tests_cant": "The emptiness of nested keys is recursive and the positions shift with every item left out; the tests have one example of each.", "anchors": ["normalize/diff.py:compare_collection_iter", "normalize/diff.py:_nested_empty", "normalize/identity.py:record_id"]}
{"id": "C83", "title": "Names of composed property types are unions of words, and str() of a record is bounded, shows its key, and fails only where its key does", "statement": "Cut a CamelCase name into words before every capital that follows a lower case letter or digit; this cut is unique. The name of a property type composed of a base type and a trait consists of the words of the trait which the base lacks, in order, followed by the name of the base; a name merged with itself is unchanged; for ordinary class names the result is one too, has exactly the words of both, and merging the same name again changes nothing. str() of a record is the class name and the repr of its key (of the one part, if it has one part) between angle brackets, the key in full up to 32 characters and otherwise its first 30 characters and dots, so the text has at most 36 characters more than the class name; it raises an error iff taking the key does, and the same one.", "quantifier": "all class names without a comma, over all of Unicode; all records of all classes, with any repr of key parts", "why_tests_cant": "Regular expression matches do not overlap and words can repeat across names; the tests compare a handful of names and short keys.", "anchors": ["normalize/property/meta.py:_merge_camel_case_names", "normalize/record/__init__.py:Record.__str__", "normalize/record/__init__.py:Record.__pk__"]}
{"id": "C84", "title": "A record shares with its document exactly what has no record type; a written document shares nothing", "statement": "Loading a JSON document into a JsonRecord, JsonRecordList or JsonRecordDict class changes no existing object and gives a new one. From it one gets to an existing object iff one gets there from a value which the class takes as it is: the value of a property without a record type, an item of a collection without a record type, or an item which is a record of the item type already, at any depth of typed properties and items. Unknown keys are never shared. If every property and item reachable from the class has a record type, and the document has no records in it, nothing is shared. json_data() and to_json() change no existing object and the document written leads to new objects only. What is written depends only on the objects which the record leads to: so no later change of a document changes what a record writes, be it a document written from it, or the one it was loaded from except for the values taken as they are.", "quantifier": "all object graphs (shared and cyclic ones included) without dangling references, all classes, all documents which can be loaded or written", "why_tests_cant": "Sharing does not show in the values which tests compare; it depends on the nesting of types, and shows only after a later change.", "anchors": ["normalize/record/json.py:json_to_initkwargs", "normalize/record/json.py:_json_to_value_initializer", "normalize/record/json.py:to_json", "normalize/record/json.py:JsonRecord.json_data", "normalize/record/json.py:JsonRecordList.json_to_initkwargs", "normalize/record/json.py:JsonRecordDict.json_to_initkwargs"]}
{"id": "C85", "title": "Typed dicts have entries of their own, and update takes the entries its argument had when it began", "statement": "In every program that makes typed dicts and Python dicts and calls their methods, without copy.copy of typed dicts of declared classes: a method of one object changes no other object, and an object made has entries which only its own methods change. In every program, copies included: a method that succeeds changes its own object as the operation on finite maps with coerced values says; for update with a typed dict this holds also if the argument is the object itself or shares its dict, with the entries as they were at the start, and changes nothing if the values have the item type. An operation other than update that raises changes nothing. An update that raises has written exactly the entries before the first one which cannot be coerced. A copy of a typed dict of a declared class shares its entries for ever; a typed dict made of a typed dict is empty.", "quantifier": "all programs of these operations, all item types and coercions", "why_tests_cant": "Sharing shows only in later operations on another object; update reads from what it writes only if it is given itself.", "anchors": ["normalize/coll.py:DictCollection.update", "normalize/coll.py:DictCollection.coll_to_tuples", "normalize/coll.py:DictCollection.tuples_to_coll", "normalize/coll.py:KeyedCollection.__setitem__", "normalize/coll.py:DictCollection.popitem", "normalize/coll.py:_Generic.__reduce__", "normalize/record/__init__.py:Record.__getstate__"]}
{"id": "C86", "title": "repr of a structured exception is Python source for it, unless a positional argument is a tuple", "statement": "For every structured exception whose positional arguments are no tuples, whose arguments can all be rebuilt from their own repr, and whose keywords are names, the text is a call of its class (with exc. if the module is one of exceptions) that gives the same positional arguments in their order and the same keyword arguments; different such exceptions have different texts; the names of all classes of exc.py can be called so. If a positional argument is a tuple of any length but one, repr raises; a tuple of one element is printed as the element.", "quantifier": "all structured exceptions, over all classes of records and all arguments; all texts, lists, records nested in them", "why_tests_cant": "Tests print a few exceptions with short arguments; a tuple as an argument is an unlikely test, and a repr that raises shows only in logs.", "anchors": ["normalize/exc.py:StringFormatException.__repr__", "normalize/exc.py:StringFormatException.__init__"]}
