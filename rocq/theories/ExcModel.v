(** Structured exceptions: normalize/exc.py:27-495 and every place of the library which raises one. *)
From Coq Require Import String List NArith Arith Bool.
From Verif Require Import Prelude.
Import ListNotations.
Local Open Scope string_scope.
Local Open Scope list_scope.

(** What formatting can raise: KeyError with its argument, IndexError, anything else. *)
Inductive ferr (V : Type) := FKey (v : V) | FIndex | FOther (e : exn).
Arguments FKey {V} v.
Arguments FIndex {V}.
Arguments FOther {V} e.

(** An exception class of exc.py; bases not defined in exc.py are builtins. *)
Record cls := { c_name : string; c_bases : list string; c_message : option string }.

(** exc.py:27-495, the whole module *)
Definition classes : list cls := [
  {| c_name := "NormalizeError"; c_bases := ["Exception"]; c_message := None |};
  {| c_name := "StringFormatException"; c_bases := ["NormalizeError"]; c_message := Some "(uncustomized exception!)" |};
  {| c_name := "AttributeValueError"; c_bases := ["StringFormatException"; "ValueError"]; c_message := None |};
  {| c_name := "CoercionError"; c_bases := ["StringFormatException"; "TypeError"]; c_message := None |};
  {| c_name := "EmptyAttributeError"; c_bases := ["StringFormatException"]; c_message := None |};
  {| c_name := "FeatureNotImplementedException"; c_bases := ["StringFormatException"]; c_message := None |};
  {| c_name := "FieldSelectorException"; c_bases := ["StringFormatException"]; c_message := None |};
  {| c_name := "PropertyDefinitionError"; c_bases := ["StringFormatException"]; c_message := None |};
  {| c_name := "PropertyTypeDefinitionError"; c_bases := ["StringFormatException"]; c_message := None |};
  {| c_name := "RecordDefinitionError"; c_bases := ["StringFormatException"]; c_message := None |};
  {| c_name := "StringFormatExceptionError"; c_bases := ["StringFormatException"]; c_message := None |};
  {| c_name := "SubclassError"; c_bases := ["StringFormatException"]; c_message := None |};
  {| c_name := "TypeDefinitionError"; c_bases := ["StringFormatException"; "TypeError"]; c_message := None |};
  {| c_name := "UsageException"; c_bases := ["StringFormatException"]; c_message := None |};
  {| c_name := "VisitorException"; c_bases := ["StringFormatException"]; c_message := None |};
  {| c_name := "AmbiguousConstruction"; c_bases := ["UsageException"]; c_message := Some "only init_dict or kwargs may be specified" |};
  {| c_name := "BadAssignment"; c_bases := ["EmptyAttributeError"; "TypeError"]; c_message := Some "Can't assign to the empty placeholder for ({typenames})" |};
  {| c_name := "CastTypeError"; c_bases := ["UsageException"; "TypeError"]; c_message := Some "Cannot cast to {badtype}; not a record type" |};
  {| c_name := "CoerceError"; c_bases := ["CoercionError"]; c_message := Some "coerce to {valuetype} for {prop.fullname} failed with value {passed!r}: {func} raised: {exc}" |};
  {| c_name := "CoerceWithoutType"; c_bases := ["PropertyDefinitionError"]; c_message := Some "In order to coerce types, the intended type must be known; pass isa=TYPE or isa=(TYPE, TYPE, ...) to Property()" |};
  {| c_name := "CollectionCoerceError"; c_bases := ["CoercionError"]; c_message := Some "Cannot interpret {passed!r} as a {colltype.__name__} constructor" |};
  {| c_name := "CollectionItemCoerceError"; c_bases := ["CoercionError"]; c_message := Some "coerce to {itemtype.__name__} for insertion to {colltype.__name__} failed for value {passed!r}: {exc}" |};
  {| c_name := "CollectionDefinitionError"; c_bases := ["SubclassError"]; c_message := Some "{property} must be defined in a {coll} subclass" |};
  {| c_name := "CollectionItemTypeUnsupported"; c_bases := ["FeatureNotImplementedException"]; c_message := Some "Collections with type union itemtype are not supported" |};
  {| c_name := "CollectionDiffUnsupported"; c_bases := ["FeatureNotImplementedException"]; c_message := Some "Custom collections with simple item type {item_type_name} are not supported for diff" |};
  {| c_name := "CollRequiredError"; c_bases := ["PropertyDefinitionError"]; c_message := Some "coll is required; specify coll type or use a sub-class like ListProperty" |};
  {| c_name := "CollTypeMismatch"; c_bases := ["PropertyDefinitionError"]; c_message := Some "collection property 'isa' must match collection type" |};
  {| c_name := "CompareAsSignatureError"; c_bases := ["PropertyDefinitionError"]; c_message := Some "compare_as functions may take 0 or 1 arguments; {module}.{func} wants {nargs}" |};
  {| c_name := "DefaultSignatureError"; c_bases := ["PropertyDefinitionError"]; c_message := Some "default functions must have no required arguments (except 'self'); {module}.{func} wants {nargs}" |};
  {| c_name := "DictOfWhat"; c_bases := ["PropertyDefinitionError"]; c_message := Some "Dict Properties must have a defined item type; pass of= or dict_of= to the declaration" |};
  {| c_name := "DictPropertyMustDeriveDictCollection"; c_bases := ["PropertyDefinitionError"]; c_message := Some "Dict Property collections must derive DictCollection, and {got} doesn't" |};
  {| c_name := "DiffOptionsException"; c_bases := ["UsageException"]; c_message := Some "pass options= or DiffOptions constructor arguments; not both" |};
  {| c_name := "EmptyDefinitionMissing"; c_bases := ["PropertyDefinitionError"]; c_message := Some "'{classname}()' threw {exc_type_name}; define an empty value or function and pass with empty=, or disable empty pseudo-attribute using empty_attr=None; assuming empty=None" |};
  {| c_name := "EmptySignatureError"; c_bases := ["PropertyDefinitionError"]; c_message := Some "empty functions must have no required arguments (except 'self'); {module}.{func} wants {nargs}" |};
  {| c_name := "FieldSelectorAttributeError"; c_bases := ["FieldSelectorException"; "AttributeError"]; c_message := Some "Could not find property specified by name: {name}" |};
  {| c_name := "FieldSelectorKeyError"; c_bases := ["FieldSelectorException"; "KeyError"]; c_message := Some "Could not find Record specified by index: {key}" |};
  {| c_name := "IdentityCrisis"; c_bases := ["FeatureNotImplementedException"]; c_message := Some "Can't obtain anything hashable from {val_type_name} instance {val_repr}" |};
  {| c_name := "KeyHashError"; c_bases := ["StringFormatException"]; c_message := Some "PK for {prop} returned an unhashable value; try setting a primary key in type {typename}" |};
  {| c_name := "KeywordExceptionFormatError"; c_bases := ["StringFormatExceptionError"]; c_message := Some "{typename} raised without passing {missing}; saw only: {passed}" |};
  {| c_name := "LazyIsFalse"; c_bases := ["PropertyDefinitionError"]; c_message := Some "To make an eager property, do not pass lazy= to Property()" |};
  {| c_name := "ListOfWhat"; c_bases := ["PropertyDefinitionError"]; c_message := Some "List Properties must have a defined item type; pass of= or list_of= to the declaration" |};
  {| c_name := "ListPropertyMustDeriveListCollection"; c_bases := ["PropertyDefinitionError"]; c_message := Some "List Property collections must derive ListCollection, and {got} doesn't" |};
  {| c_name := "MultipleInheritanceClash"; c_bases := ["SubclassError"]; c_message := Some "Property {prop.name} defined by multiple base classes of {typename}" |};
  {| c_name := "NotCallable"; c_bases := ["EmptyAttributeError"; "TypeError"]; c_message := Some "No types in ({typenames}) support invoking" |};
  {| c_name := "NotSubscriptable"; c_bases := ["EmptyAttributeError"; "TypeError"]; c_message := Some "No types in ({typenames}) support subscripting" |};
  {| c_name := "NoSuchAttribute"; c_bases := ["EmptyAttributeError"; "AttributeError"]; c_message := Some "No types in ({typenames}) have attribute '{attribute}'" |};
  {| c_name := "PositionalArgumentsProhibited"; c_bases := ["PropertyDefinitionError"]; c_message := Some "Positional arguments to Property constructors will only end in tears.  Convert to keyword argument form." |};
  {| c_name := "PositionalExceptionFormatError"; c_bases := ["StringFormatExceptionError"]; c_message := Some "{typename} expects a positional format string; passed: {received}" |};
  {| c_name := "PropertiesNotKnown"; c_bases := ["RecordDefinitionError"]; c_message := Some "{proplist} cannot be interpreted as a sequence of Properties in this class (string names or Property objects); first bad value: {badprop}" |};
  {| c_name := "PropertyArgumentNotKnown"; c_bases := ["PropertyDefinitionError"; "TypeError"]; c_message := Some "No such keyword argument '{badkwarg}' of {proptypename} or any loaded subclass' constructor" |};
  {| c_name := "PropertyNotKnown"; c_bases := ["UsageException"]; c_message := Some "unknown property {propname} in {typename}" |};
  {| c_name := "PropertyNotUnique"; c_bases := ["PropertyTypeDefinitionError"]; c_message := Some "Duplicate ListProperties of the same class name defined in the same module.  Both end up being called {key} in my global map.  I'm sorry Dave, I'm afraid I can't let you do that." |};
  {| c_name := "PropertyRequired"; c_bases := ["AttributeValueError"]; c_message := Some "attribute {prop.fullname} is required" |};
  {| c_name := "PropertyTypeClash"; c_bases := ["StringFormatException"]; c_message := Some "Both {oldtype} and {newtype} purport to provide the mix of traits: {traitlist} (perhaps a module import error is causing module initialization to happen multiple times?)" |};
  {| c_name := "PropertyTypeMismatch"; c_bases := ["PropertyDefinitionError"]; c_message := Some "Can't create {selected} property using {base} constructor" |};
  {| c_name := "PropertyTypeMixNotFound"; c_bases := ["StringFormatException"]; c_message := Some "Failed to find a Property type which provides traits {traitlist}" |};
  {| c_name := "PropertyTypeMixinNotPossible"; c_bases := ["PropertyTypeMixNotFound"]; c_message := Some "Can't mix together a Property type for traits {traitlist}; none of the types which provide those traits provide: {missing}" |};
  {| c_name := "PropertyTypeMixinFailure"; c_bases := ["PropertyTypeMixNotFound"]; c_message := Some "Failed to find a Property type which provides traits {traitlist}; but I did make these types: {newtypelist}" |};
  {| c_name := "ReadOnlyAttributeError"; c_bases := ["StringFormatException"; "AttributeError"]; c_message := Some "{attrname} is read-only" |};
  {| c_name := "JsonConversionError"; c_bases := ["CoercionError"]; c_message := Some "Json conversion failed at {error_fs.path}; {sub_exception}" |};
  {| c_name := "JsonCollectionCoerceError"; c_bases := ["CoercionError"]; c_message := Some "Cannot interpret {passed!r} as a {colltype.__name__} collection; {colltype.json_coll_name} expected" |};
  {| c_name := "JsonRecordCoerceError"; c_bases := ["CoercionError"]; c_message := Some "Cannot interpret {passed!r} as a {recordtype.__name__} constructor" |};
  {| c_name := "ReservedPropertyName"; c_bases := ["RecordDefinitionError"]; c_message := Some "Attribute {attrname} is reserved" |};
  {| c_name := "SubtypeCoerceError"; c_bases := ["CoercionError"]; c_message := Some "value {passed!r} coerces to {coerced!r} but this is not a valid {subtype.__name__}" |};
  {| c_name := "SubtypeOfWhat"; c_bases := ["TypeDefinitionError"]; c_message := Some "cannot create a subtype of non-type object {of}" |};
  {| c_name := "SubtypeNoCoerceFunc"; c_bases := ["CoercionError"]; c_message := Some "value {passed!r} does not pass subtype constraint {subtype.__name__} of {subtype_of.__name__}, and no coerce method defined" |};
  {| c_name := "ValueCheckError"; c_bases := ["AttributeValueError"]; c_message := Some "value {passed!r} failed value check for {prop.fullname}" |};
  {| c_name := "ValueCoercionError"; c_bases := ["CoercionError"]; c_message := Some "Coerce function on {prop.fullname} returned a bad coerced value {coerced!r} from input {passed!r}" |};
  {| c_name := "VisitorOptionsException"; c_bases := ["UsageException"]; c_message := Some "pass options= or Visitor.Options constructor arguments; not both" |};
  {| c_name := "VisitorPropError"; c_bases := ["VisitorException"]; c_message := Some "failed to get '{prop_name}' from {record_type_name} instance at {fs}; {exception}" |};
  {| c_name := "VisitorGrokRecordError"; c_bases := ["VisitorException"]; c_message := Some "{val} found where I'm expecting to unpack a {record_type_name} record at {field_selector}" |};
  {| c_name := "VisitorGrokCollectionError"; c_bases := ["VisitorGrokRecordError"]; c_message := Some "{val} found where I'm expecting to unpack a {record_type_name} collection at {field_selector}" |};
  {| c_name := "VisitorTooSimple"; c_bases := ["VisitorException"]; c_message := Some "{visitor} mapped over a Collection ({value_type_name}) with properties but the default reduce method clashed with a property; override reduce in your VisitorPattern class to resolve." |};
  {| c_name := "VisitorUnpackError"; c_bases := ["VisitorException"; "TypeError"]; c_message := Some "Can't unpack collection at {context.field_selector}; expected {colltype.__name__}, got {passed!r}" |}
].

(** What is known about a value passed where an exception is raised: text; a class; an [itemtype],
    which is a class or a tuple of classes; a Property; a FieldSelector; a JSON collection class
    (json.py:361, 434); a visitor; nothing. *)
Inductive sort := VStr | VType | VItem | VProp | VFs | VJColl | VVisitor | VAny.

(** A place which constructs a structured exception: number of positional arguments, and keywords.
    (exc.py:40, 45 are in [init] below.) *)
Record site := { s_file : string; s_line : nat; s_class : string; s_args : nat;
                 s_kw : list (string * sort) }.

(** All of them, from all files of normalize; those of empty.py go through [_exc] (empty.py:141-144). *)
Definition sites : list site := [
  {| s_file := "coll.py"; s_line := 66; s_class := "CollectionDefinitionError"; s_args := 0; s_kw := [("property", VStr); ("coll", VStr)] |};
  {| s_file := "coll.py"; s_line := 77; s_class := "CollectionDefinitionError"; s_args := 0; s_kw := [("property", VStr); ("coll", VStr)] |};
  {| s_file := "coll.py"; s_line := 144; s_class := "CollectionItemCoerceError"; s_args := 0; s_kw := [("itemtype", VItem); ("colltype", VType); ("passed", VAny); ("exc", VAny)] |};
  {| s_file := "coll.py"; s_line := 168; s_class := "CollectionDefinitionError"; s_args := 0; s_kw := [("property", VStr); ("coll", VStr)] |};
  {| s_file := "coll.py"; s_line := 177; s_class := "CollectionDefinitionError"; s_args := 0; s_kw := [("property", VStr); ("coll", VStr)] |};
  {| s_file := "coll.py"; s_line := 186; s_class := "CollectionDefinitionError"; s_args := 0; s_kw := [("property", VStr); ("coll", VStr)] |};
  {| s_file := "coll.py"; s_line := 220; s_class := "CollectionCoerceError"; s_args := 0; s_kw := [("passed", VAny); ("colltype", VType)] |};
  {| s_file := "coll.py"; s_line := 317; s_class := "CollectionCoerceError"; s_args := 0; s_kw := [("passed", VAny); ("colltype", VType)] |};
  {| s_file := "coll.py"; s_line := 337; s_class := "CollectionCoerceError"; s_args := 0; s_kw := [("passed", VAny); ("colltype", VType)] |};
  {| s_file := "coll.py"; s_line := 493; s_class := "PropertyNotUnique"; s_args := 0; s_kw := [("key", VAny)] |};
  {| s_file := "diff.py"; s_line := 622; s_class := "CollectionItemTypeUnsupported"; s_args := 0; s_kw := [] |};
  {| s_file := "diff.py"; s_line := 630; s_class := "CollectionDiffUnsupported"; s_args := 0; s_kw := [("coll_type", VType); ("item_type", VType); ("item_type_name", VStr)] |};
  {| s_file := "diff.py"; s_line := 999; s_class := "DiffOptionsException"; s_args := 0; s_kw := [] |};
  {| s_file := "empty.py"; s_line := 73; s_class := "NoSuchAttribute"; s_args := 0; s_kw := [("typenames", VStr); ("attribute", VStr)] |};
  {| s_file := "empty.py"; s_line := 92; s_class := "BadAssignment"; s_args := 0; s_kw := [("typenames", VStr)] |};
  {| s_file := "empty.py"; s_line := 95; s_class := "BadAssignment"; s_args := 0; s_kw := [("typenames", VStr)] |};
  {| s_file := "empty.py"; s_line := 103; s_class := "NotCallable"; s_args := 0; s_kw := [("typenames", VStr)] |};
  {| s_file := "empty.py"; s_line := 120; s_class := "NotSubscriptable"; s_args := 0; s_kw := [("typenames", VStr)] |};
  {| s_file := "identity.py"; s_line := 40; s_class := "IdentityCrisis"; s_args := 0; s_kw := [("val", VAny); ("val_repr", VStr); ("val_type", VType); ("val_type_name", VStr)] |};
  {| s_file := "identity.py"; s_line := 104; s_class := "KeyHashError"; s_args := 0; s_kw := [("prop", VStr); ("typename", VStr)] |};
  {| s_file := "property/__init__.py"; s_line := 144; s_class := "DefaultSignatureError"; s_args := 0; s_kw := [("func", VAny); ("module", VAny); ("nargs", VAny)] |};
  {| s_file := "property/__init__.py"; s_line := 155; s_class := "CoerceWithoutType"; s_args := 0; s_kw := [] |};
  {| s_file := "property/__init__.py"; s_line := 204; s_class := "PropertyRequired"; s_args := 0; s_kw := [("prop", VProp)] |};
  {| s_file := "property/__init__.py"; s_line := 213; s_class := "CoerceError"; s_args := 0; s_kw := [("prop", VProp); ("passed", VAny); ("exc", VAny); ("func", VAny); ("valuetype", VStr)] |};
  {| s_file := "property/__init__.py"; s_line := 234; s_class := "ValueCoercionError"; s_args := 0; s_kw := [("prop", VProp); ("passed", VAny); ("coerced", VAny)] |};
  {| s_file := "property/__init__.py"; s_line := 242; s_class := "ValueCheckError"; s_args := 0; s_kw := [("prop", VProp); ("passed", VAny)] |};
  {| s_file := "property/__init__.py"; s_line := 270; s_class := "PropertyRequired"; s_args := 0; s_kw := [("prop", VProp)] |};
  {| s_file := "property/__init__.py"; s_line := 347; s_class := "LazyIsFalse"; s_args := 0; s_kw := [] |};
  {| s_file := "property/__init__.py"; s_line := 382; s_class := "ReadOnlyAttributeError"; s_args := 0; s_kw := [("attrname", VStr)] |};
  {| s_file := "property/__init__.py"; s_line := 386; s_class := "ReadOnlyAttributeError"; s_args := 0; s_kw := [("attrname", VStr)] |};
  {| s_file := "property/__init__.py"; s_line := 419; s_class := "PropertyRequired"; s_args := 0; s_kw := [("prop", VProp)] |};
  {| s_file := "property/__init__.py"; s_line := 442; s_class := "NoneMutable"; s_args := 0; s_kw := [("passed", VAny)] |};
  {| s_file := "property/__init__.py"; s_line := 488; s_class := "CompareAsSignatureError"; s_args := 0; s_kw := [("func", VAny); ("module", VAny); ("nargs", VAny)] |};
  {| s_file := "property/coll.py"; s_line := 50; s_class := "CollRequiredError"; s_args := 0; s_kw := [] |};
  {| s_file := "property/coll.py"; s_line := 54; s_class := "CollTypeMismatch"; s_args := 0; s_kw := [] |};
  {| s_file := "property/coll.py"; s_line := 78; s_class := "ListOfWhat"; s_args := 0; s_kw := [] |};
  {| s_file := "property/coll.py"; s_line := 81; s_class := "ListPropertyMustDeriveListCollection"; s_args := 0; s_kw := [("got", VStr)] |};
  {| s_file := "property/coll.py"; s_line := 98; s_class := "DictOfWhat"; s_args := 0; s_kw := [] |};
  {| s_file := "property/coll.py"; s_line := 101; s_class := "DictPropertyMustDeriveDictCollection"; s_args := 0; s_kw := [("got", VStr)] |};
  {| s_file := "property/meta.py"; s_line := 54; s_class := "PositionalArgumentsProhibited"; s_args := 0; s_kw := [] |};
  {| s_file := "property/meta.py"; s_line := 72; s_class := "AmbiguousPropertyTraitArg"; s_args := 0; s_kw := [("trait_arg", VStr); ("could_be", VStr); ("matched_traits", VAny)] |};
  {| s_file := "property/meta.py"; s_line := 80; s_class := "PropertyArgumentNotKnown"; s_args := 0; s_kw := [("badkwarg", VStr); ("badkwarg_value", VAny); ("proptypename", VStr); ("proptype", VType)] |};
  {| s_file := "property/meta.py"; s_line := 108; s_class := "PropertyTypeMismatch"; s_args := 0; s_kw := [("selected", VStr); ("base", VStr)] |};
  {| s_file := "property/meta.py"; s_line := 156; s_class := "PropertyTypeMixinNotPossible"; s_args := 0; s_kw := [("traitlist", VStr); ("missing", VStr)] |};
  {| s_file := "property/meta.py"; s_line := 211; s_class := "PropertyTypeMixinFailure"; s_args := 0; s_kw := [("traitlist", VStr); ("newtypelist", VStr)] |};
  {| s_file := "property/meta.py"; s_line := 252; s_class := "PropertyTypeClash"; s_args := 0; s_kw := [("newtype", VStr); ("oldtype", VStr); ("traitlist", VStr)] |};
  {| s_file := "record/__init__.py"; s_line := 51; s_class := "AmbiguousConstruction"; s_args := 0; s_kw := [] |};
  {| s_file := "record/__init__.py"; s_line := 57; s_class := "PropertyNotKnown"; s_args := 0; s_kw := [("propname", VAny); ("recordtype", VType); ("typename", VStr)] |};
  {| s_file := "record/json.py"; s_line := 58; s_class := "JsonConversionError"; s_args := 0; s_kw := [("error_fs", VFs); ("sub_exception", VAny)] |};
  {| s_file := "record/json.py"; s_line := 81; s_class := "JsonRecordCoerceError"; s_args := 0; s_kw := [("passed", VAny); ("recordtype", VType)] |};
  {| s_file := "record/json.py"; s_line := 159; s_class := "CastTypeError"; s_args := 0; s_kw := [("badtype", VAny)] |};
  {| s_file := "record/json.py"; s_line := 385; s_class := "CollectionDefinitionError"; s_args := 0; s_kw := [("coll", VStr); ("property", VStr)] |};
  {| s_file := "record/json.py"; s_line := 394; s_class := "JsonCollectionCoerceError"; s_args := 0; s_kw := [("passed", VAny); ("colltype", VJColl)] |};
  {| s_file := "record/json.py"; s_line := 458; s_class := "CollectionDefinitionError"; s_args := 0; s_kw := [("coll", VStr); ("property", VStr)] |};
  {| s_file := "record/json.py"; s_line := 467; s_class := "JsonCollectionCoerceError"; s_args := 0; s_kw := [("passed", VAny); ("colltype", VJColl)] |};
  {| s_file := "record/meta.py"; s_line := 41; s_class := "MultipleInheritanceClash"; s_args := 0; s_kw := [("prop", VProp); ("typename", VStr)] |};
  {| s_file := "record/meta.py"; s_line := 55; s_class := "ReservedPropertyName"; s_args := 0; s_kw := [("attrname", VStr)] |};
  {| s_file := "record/meta.py"; s_line := 76; s_class := "PropertiesNotKnown"; s_args := 0; s_kw := [("badprop", VStr); ("proplist", VStr)] |};
  {| s_file := "selector.py"; s_line := 164; s_class := "FieldSelectorKeyError"; s_args := 0; s_kw := [("key", VAny)] |};
  {| s_file := "selector.py"; s_line := 167; s_class := "FieldSelectorAttributeError"; s_args := 0; s_kw := [("name", VAny)] |};
  {| s_file := "selector.py"; s_line := 202; s_class := "FieldSelectorException"; s_args := 1; s_kw := [] |};
  {| s_file := "selector.py"; s_line := 210; s_class := "FieldSelectorException"; s_args := 1; s_kw := [] |};
  {| s_file := "selector.py"; s_line := 225; s_class := "FieldSelectorException"; s_args := 1; s_kw := [] |};
  {| s_file := "selector.py"; s_line := 233; s_class := "FieldSelectorException"; s_args := 1; s_kw := [] |};
  {| s_file := "selector.py"; s_line := 290; s_class := "FieldSelectorException"; s_args := 1; s_kw := [] |};
  {| s_file := "selector.py"; s_line := 341; s_class := "FieldSelectorKeyError"; s_args := 0; s_kw := [("key", VAny)] |};
  {| s_file := "selector.py"; s_line := 344; s_class := "FieldSelectorAttributeError"; s_args := 0; s_kw := [("name", VAny)] |};
  {| s_file := "subtype.py"; s_line := 43; s_class := "SubtypeOfWhat"; s_args := 0; s_kw := [("of", VAny)] |};
  {| s_file := "subtype.py"; s_line := 61; s_class := "SubtypeCoerceError"; s_args := 0; s_kw := [("subtype", VType); ("subtype_of", VType); ("passed", VAny); ("coerced", VAny)] |};
  {| s_file := "subtype.py"; s_line := 69; s_class := "SubtypeNoCoerceFunc"; s_args := 0; s_kw := [("passed", VAny); ("subtype", VType); ("subtype_of", VType)] |};
  {| s_file := "visitor.py"; s_line := 233; s_class := "VisitorUnpackError"; s_args := 0; s_kw := [("passed", VAny); ("colltype", VStr); ("context", VVisitor)] |};
  {| s_file := "visitor.py"; s_line := 351; s_class := "VisitorTooSimple"; s_args := 0; s_kw := [("fs", VFs); ("value_type_name", VStr); ("visitor", VStr)] |};
  {| s_file := "visitor.py"; s_line := 416; s_class := "VisitorGrokRecordError"; s_args := 0; s_kw := [("val", VStr); ("record_type", VType); ("record_type_name", VStr); ("field_selector", VFs)] |};
  {| s_file := "visitor.py"; s_line := 434; s_class := "VisitorGrokCollectionError"; s_args := 0; s_kw := [("val", VStr); ("record_type", VType); ("record_type_name", VStr); ("field_selector", VFs)] |};
  {| s_file := "visitor.py"; s_line := 657; s_class := "VisitorPropError"; s_args := 0; s_kw := [("exception", VAny); ("prop", VProp); ("prop_name", VStr); ("record_type_name", VStr); ("fs", VFs)] |}
].

Definition find_cls (n : string) : option cls :=
  find (fun c => String.eqb (c_name c) n) classes.

(** [cls.message]: attribute lookup along the bases (exc.py:32).  In this module every class has one
    base from the module and the others are builtins, which have no [message]. *)
Fixpoint message_of (fuel : nat) (n : string) : option string :=
  match fuel with
  | 0 => None
  | S f => match find_cls n with
           | None => None
           | Some c => match c_message c with
                       | Some m => Some m
                       | None => firstm (message_of f) (c_bases c)
                       end
           end
  end.
Definition message (n : string) : option string := message_of 8 n.

(** [issubclass], over the names *)
Fixpoint derives (fuel : nat) (n b : string) : bool :=
  String.eqb n b ||
  match fuel with
  | 0 => false
  | S f => match find_cls n with
           | None => false
           | Some c => existsb (fun x => derives f x b) (c_bases c)
           end
  end.
Definition subclass (n b : string) : bool := derives 8 n b.

Section Exc.
(** Python values, with what formatting can do to them: [format(v, "")], [repr(v)], [str(v)],
    [getattr(v, name)].  User code may be behind all of these. *)
Variable val : Type.
Variable fmt rep str_ : val -> str + ferr val.
Variable attr : val -> str -> val + ferr val.
(** a str; [repr] of a tuple of values and of a list of names *)
Variable of_str : str -> val.
Variable repr_args : list val -> str.
Variable repr_names : list str -> str.

Definition fbind {A B} (x : A + ferr val) (f : A -> B + ferr val) : B + ferr val :=
  match x with inl a => f a | inr e => inr e end.

(** [str.format] (CPython, Objects/stringlib/unicode_format.h), without format specifications,
    subscripts and nested fields, which no message of exc.py uses: those give OtherErr 90. *)

(** Split at the first [c]. *)
Fixpoint cut (c : N) (s : str) : str * option str :=
  match s with
  | [] => ([], None)
  | x :: t => if N.eqb x c then ([], Some t)
              else let (a, b) := cut c t in (x :: a, b)
  end.
Fixpoint split_on (c : N) (s : str) : list str :=
  match s with
  | [] => [[]]
  | x :: t => if N.eqb x c then [] :: split_on c t
              else match split_on c t with [] => [[x]] | h :: r => (x :: h) :: r end
  end.
Definition c_bang : N := 33. Definition c_dot : N := 46. Definition c_colon : N := 58.
Definition c_sub : N := 91. Definition c_open : N := 123. Definition c_close : N := 125.

Definition is_digit (c : N) : bool := N.leb 48 c && N.leb c 57.
Fixpoint number_of (acc : nat) (s : str) : nat :=
  match s with [] => acc | c :: t => number_of (10 * acc + N.to_nat (c - 48)) t end.

Fixpoint kget (n : str) (kw : list (str * val)) : option val :=
  match kw with
  | [] => None
  | (k, v) :: t => if str_eqb n k then Some v else kget n t
  end.

(** The first part of a field name: empty is the next position, digits a position, else a keyword. *)
Definition lookup (args : list val) (kw : list (str * val)) (auto : nat) (n : str)
  : val + ferr val :=
  let pos i := match nth_error args i with Some v => inl v | None => inr FIndex end in
  match n with
  | [] => pos auto
  | _ => if forallb is_digit n then pos (number_of 0 n)
         else match kget n kw with Some v => inl v | None => inr (FKey (of_str n)) end
  end.

Fixpoint walk (v : val) (path : list str) : val + ferr val :=
  match path with
  | [] => inl v
  | a :: t => fbind (attr v a) (fun w => walk w t)
  end.

(** One replacement field, the text between the braces. *)
Definition field (args : list val) (kw : list (str * val)) (auto : nat) (body : str)
  : str + ferr val :=
  let (name, conv) := cut c_bang body in
  if existsb (fun c => N.eqb c c_colon || N.eqb c c_sub) body then inr (FOther (OtherErr 90))
  else match split_on c_dot name with
       | [] => inr (FOther ValueErr)
       | first :: path =>
           fbind (lookup args kw auto first) (fun v =>
           fbind (walk v path) (fun w =>
           match conv with
           | None => fmt w
           | Some c => if str_eqb c (s2l "r") then rep w
                       else if str_eqb c (s2l "s") then str_ w
                       else inr (FOther ValueErr)
           end))
       end.

Definition emit (c : N) (r : str + ferr val) : str + ferr val :=
  match r with inl t => inl (c :: t) | inr e => inr e end.

(** The scan; [body]: inside a field, its text so far in reverse. *)
Fixpoint format (args : list val) (kw : list (str * val)) (auto : nat) (body : option str) (m : str)
  : str + ferr val :=
  match body, m with
  | None, [] => inl []
  | None, c :: t =>
      if N.eqb c c_open then
        match t with
        | d :: t' => if N.eqb d c_open then emit c_open (format args kw auto None t')
                     else format args kw auto (Some []) t
        | [] => inr (FOther ValueErr)
        end
      else if N.eqb c c_close then
        match t with
        | d :: t' => if N.eqb d c_close then emit c_close (format args kw auto None t')
                     else inr (FOther ValueErr)
        | [] => inr (FOther ValueErr)
        end
      else emit c (format args kw auto None t)
  | Some _, [] => inr (FOther ValueErr)
  | Some b, c :: t =>
      if N.eqb c c_close then
        fbind (field args kw auto (rev b)) (fun s =>
        fbind (format args kw (match rev b with
                               | [] => S auto
                               | c :: _ => if N.eqb c c_dot || N.eqb c c_bang then S auto else auto
                               end) None t)
              (fun r => inl (s ++ r)))
      else if N.eqb c c_open then inr (FOther (OtherErr 90))
      else format args kw auto (Some (c :: b)) t
  end.

(** An instance: class, [args], [kwargs], [formatted] (exc.py:34-38). *)
Record eobj := { x_class : string; x_args : list val; x_kw : list (str * val); x_text : str }.

(** Calling the class: an instance, or an exception which is a structured one or another. *)
Inductive made := Made (o : eobj) | Threw (o : eobj) | Broke (e : exn).

(** exc.py:34-49, __init__; [exc.X] of a name which the module has not is AttributeError.  [fuel]
    bounds exceptions raised while formatting exceptions. *)
Fixpoint init (fuel : nat) (n : string) (args : list val) (kw : list (str * val)) : made :=
  match fuel with
  | 0 => Broke RecursionErr
  | S f =>
      match message n with
      | None => Broke AttrErr
      | Some m =>
          let instead c k := match init f c [] k with Made o => Threw o | r => r end in
          match format args kw 0 None (s2l m) with
          | inl t => Made {| x_class := n; x_args := args; x_kw := kw; x_text := t |}
          | inr FIndex =>
              instead "PositionalExceptionFormatError"
                [(s2l "typename", of_str (s2l n)); (s2l "received", of_str (repr_args args))]
          | inr (FKey v) =>
              instead "KeywordExceptionFormatError"
                [(s2l "typename", of_str (s2l n)); (s2l "missing", v);
                 (s2l "passed", of_str (repr_names (map fst kw)))]
          | inr (FOther e) => Broke e
          end
      end
  end.
Definition make := init 2.

(** [raise X(...)] *)
Definition raised (m : made) : eobj + exn :=
  match m with Made o | Threw o => inl o | Broke e => inr e end.

(** Attribute access.  [__getattr__] (exc.py:54-62) is only asked for what ordinary lookup does not
    find: the instance has args, kwargs and formatted; the classes message and the methods of
    BaseException; and [new_python] (3.10 and later) gives AttributeError the members name and obj. *)
Inductive got := Kw (v : val) | Inherited | NoAttr.
Definition own_names (new_python : bool) (n : string) : list string :=
  ["args"; "kwargs"; "formatted"; "message"; "with_traceback"; "add_note"]
  ++ (if new_python && subclass n "AttributeError" then ["name"; "obj"] else []).
Definition get_attr (new_python : bool) (o : eobj) (a : str) : got :=
  if existsb (fun s => str_eqb a (s2l s)) (own_names new_python (x_class o)) then Inherited
  else match kget a (x_kw o) with Some v => Kw v | None => NoAttr end.

(** exc.py:64-65, __getitem__ (of an index in range) *)
Definition get_item (o : eobj) (i : nat) : option val := nth_error (x_args o) i.

(** exc.py:51-52 *)
Definition str_of (o : eobj) : str := x_text o.

(** [pickle], [copy.copy] and [copy.deepcopy]: BaseException.__reduce__ gives the class, [args] and
    [__dict__]; loading calls the class with [args] and then updates the [__dict__] (kwargs and
    formatted). *)
Definition reload (o : eobj) : made :=
  match make (x_class o) (x_args o) [] with
  | Made o' => Made {| x_class := x_class o'; x_args := x_args o'; x_kw := x_kw o;
                       x_text := x_text o |}
  | r => r
  end.
End Exc.
