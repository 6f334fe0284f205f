-Q theories Verif
theories/Prelude.v
theories/Regex.v
theories/RegexCost.v
theories/SelPathModel.v
theories/SelPathProofs.v
theories/SelPathCost.v
theories/FSModel.v
theories/FSProofs.v
theories/SelProps.v
theories/MFSModel.v
theories/MFSProofs.v
theories/MFSText.v
theories/MFSProps.v
theories/PropModel.v
theories/PropProofs.v
theories/PropProps.v
theories/PySeq.v
theories/CollModel.v
theories/CollProofs.v
theories/CollProps.v
theories/TreeModel.v
theories/TreeProofs.v
theories/TreeProps.v
theories/MFSTreeModel.v
theories/MFSTreeProofs.v
theories/MFSTreeDel.v
theories/MFSTreeProps.v
theories/TextModel.v
theories/TextProps.v
theories/SeqDiffModel.v
theories/SeqDiffProofs.v
theories/SeqDiffProps.v
theories/FuzzyModel.v
theories/FuzzyProps.v
theories/ValModel.v
theories/EqModel.v
theories/EqProofs.v
theories/HashProofs.v
theories/EqProps.v
theories/FuzzyFlip.v
theories/DiffModel.v
theories/DiffProofs.v
theories/DiffSwap.v
theories/DiffTotal.v
theories/DiffExample.v
theories/DiffProps.v
theories/DiffExact.v
theories/DiffEntries.v
theories/DiffOnce.v
theories/DiffExactProps.v
theories/DiffFilter.v
theories/FilterId.v
theories/DiffFilterProps.v
theories/TraitModel.v
theories/TraitProofs.v
theories/TraitProps.v
theories/MetaModel.v
theories/MetaProofs.v
theories/MetaProps.v
theories/SubModel.v
theories/SubProps.v
theories/EmptyModel.v
theories/EmptyProofs.v
theories/EmptyProps.v
theories/GenModel.v
theories/GenProps.v
theories/PickleModel.v
theories/PickleProps.v
theories/AutoModel.v
theories/AutoProps.v
theories/JsonModel.v
theories/JsonSpec.v
theories/JsonProofs.v
theories/JsonPathSpec.v
theories/JsonPath.v
theories/JsonKeys.v
theories/JsonProps.v
theories/VisitModel.v
theories/VisitSpec.v
theories/VisitProofs.v
theories/VisitPath.v
theories/VisitProps.v
theories/ExcModel.v
theories/ExcSpec.v
theories/ExcProofs.v
theories/ExcProps.v
theories/DateModel.v
theories/DateSpec.v
theories/DateProofs.v
theories/DateProps.v
theories/ReprModel.v
theories/ReprSpec.v
theories/ReprText.v
theories/ReprParse.v
theories/ReprProofs.v
theories/ReprProps.v
theories/ReflectModel.v
theories/ReflectSpec.v
theories/ReflectProofs.v
theories/ReflectProps.v
theories/DiffStrModel.v
theories/DiffStrSpec.v
theories/DiffStrProofs.v
theories/DiffStrPlace.v
theories/DiffStrProps.v
theories/NumModel.v
theories/NumSpec.v
theories/NumProofs.v
theories/NumFloat.v
theories/NumProps.v
theories/CollPropModel.v
theories/CollPropProps.v
theories/AutoAttrModel.v
theories/AutoAttrProps.v
theories/UnionModel.v
theories/UnionProps.v
theories/HeapModel.v
theories/HeapSpec.v
theories/HeapProofs.v
theories/HeapProps.v
theories/HeapMFSModel.v
theories/HeapMFSSpec.v
theories/HeapMFSProofs.v
theories/HeapMFSProps.v
theories/EqDiffSpec.v
theories/EqDiffProofs.v
theories/EqDiffIds.v
theories/EqDiffProps.v
theories/IdSpec.v
theories/IdProofs.v
theories/IdProps.v
theories/EmptySlotModel.v
theories/EmptySlotSpec.v
theories/EmptySlotProofs.v
theories/EmptySlotRefine.v
theories/EmptySlotEnd.v
theories/EmptySlotProps.v
theories/SelReprModel.v
theories/SelReprSpec.v
theories/SelReprProofs.v
theories/SelReprProps.v
theories/SyncModel.v
theories/SyncSpec.v
theories/SyncProofs.v
theories/SyncProps.v
theories/HookModel.v
theories/HookSpec.v
theories/HookProofs.v
theories/HookProps.v
theories/LookModel.v
theories/LookSpec.v
theories/LookProofs.v
theories/LookProps.v
theories/InitModel.v
theories/InitSpec.v
theories/InitProofs.v
theories/InitProps.v
theories/SigModel.v
theories/SigSpec.v
theories/SigProofs.v
theories/SigProps.v
theories/ClassModel.v
theories/ClassSpec.v
theories/ClassProofs.v
theories/ClassProps.v
theories/JsonOutSpec.v
theories/JsonOutProofs.v
theories/JsonOutProps.v
theories/JsonAgainSpec.v
theories/JsonAgainProofs.v
theories/JsonAgainProps.v
theories/LooserSpec.v
theories/LooserProofs.v
theories/LooserProps.v
theories/AnyHooksModel.v
theories/AnyHooksSpec.v
theories/AnyHooksProofs.v
theories/AnyHooksVisit.v
theories/AnyHooksProps.v
theories/ShareModel.v
theories/ShareSpec.v
theories/ShareProofs.v
theories/ShareProps.v
theories/IdCostModel.v
theories/IdCostSpec.v
theories/IdCostProofs.v
theories/IdCostProps.v
theories/GraphModel.v
theories/GraphSpec.v
theories/GraphProofs.v
theories/GraphProps.v
theories/ThreadModel.v
theories/ThreadSpec.v
theories/ThreadProofs.v
theories/ThreadProps.v
theories/CycleModel.v
theories/CycleSpec.v
theories/CycleProofs.v
theories/CycleProps.v
theories/OwnModel.v
theories/OwnSpec.v
theories/OwnProofs.v
theories/OwnProps.v
theories/RecurseSpec.v
theories/RecurseProofs.v
theories/RecurseProps.v
theories/DuckSpec.v
theories/DuckProofs.v
theories/DuckProps.v
theories/BlankSpec.v
theories/BlankProofs.v
theories/BlankProps.v
theories/ItemsSpec.v
theories/ItemsProofs.v
theories/ItemsProps.v
theories/NameModel.v
theories/NameSpec.v
theories/NameProofs.v
theories/NameProps.v
theories/AliasModel.v
theories/AliasSpec.v
theories/AliasProofs.v
theories/AliasProps.v
theories/MapOwnModel.v
theories/MapOwnSpec.v
theories/MapOwnProofs.v
theories/MapOwnProps.v
theories/ExcReprModel.v
theories/ExcReprSpec.v
theories/ExcReprProofs.v
theories/ExcReprProps.v
theories/CollSlotProofs.v
theories/CollSlotProps.v
theories/RenumSpec.v
theories/RenumProofs.v
theories/RenumProps.v
