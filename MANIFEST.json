{
 "claims": [
  {
   "property": "C01",
   "status": "proved",
   "theorems": [
    "C01_dict_round_trip",
    "C01_skip_none_refuted",
    "C01_kw_only_order_refuted"
   ],
   "note": "for the fragment frag_class/tyok of Spec.v (fields may have a serializer with a deserializer that undoes it, see wt_obj; no other custom and no global serializers, flattened dicts or Optionals, generics; skip predicates only where they do not lose the value, see C53; keyword-only fields last; names of referred types distinct); the refuted theorems show two of these conditions are needed"
  },
  {
   "property": "C02",
   "status": "proved",
   "theorems": [
    "C02_tuple_round_trip"
   ],
   "note": "same fragment"
  },
  {
   "property": "C03",
   "status": "proved",
   "theorems": [
    "C03_keys"
   ],
   "note": "classes without flattened fields, serialized class variables, transparent; when wire names clash the key set still is the set of wire names"
  },
  {
   "property": "C04",
   "status": "proved",
   "theorems": [
    "C04_skipped_values",
    "C04_flatten_leak_refuted"
   ],
   "note": "for the skipped fields of the class itself, whatever is flattened into it; skipped fields of a class that is flattened into another one do show (refuted theorem)"
  },
  {
   "property": "C05",
   "status": "partial",
   "theorems": [
    "C05_skip_predicates_partial",
    "C05_flattened_partial",
    "C05_unwritable_default_partial",
    "C05_flatten_refuted"
   ],
   "note": "proved for classes with flattened dicts, and with flattened dataclasses at any depth if none of their fields has the name or the key of the field; false with a flattened dataclass whose field has the name of a field of the parent"
  },
  {
   "property": "C06",
   "status": "partial",
   "theorems": [
    "C06_skip_none_partial",
    "C06_flattened_partial",
    "C06_other_entries_partial",
    "C06_nested_refuted"
   ],
   "note": "first half proved for classes with flattened dicts, and with flattened dataclasses that have no field of that name or key; second half proved when no field holds nested objects and false otherwise"
  },
  {
   "property": "C07",
   "status": "proved",
   "theorems": [
    "C07_missing",
    "C07_message",
    "C07_tuple_of_none_refuted"
   ],
   "note": "mappings are plain dicts; fields that have both rename and alias excluded (see C23), tuples with alias excluded (see C22); no custom deserializer on the class; the refuted theorem shows that tuples of None need no entry"
  },
  {
   "property": "C08",
   "status": "proved",
   "theorems": [
    "C08_default"
   ],
   "note": "fields that have both rename and alias excluded (see C23); no custom deserializer on the class"
  },
  {
   "property": "C09",
   "status": "proved",
   "theorems": [
    "C09_rejects",
    "C09_accepts"
   ],
   "note": ""
  },
  {
   "property": "C10",
   "status": "partial",
   "theorems": [
    "C10_ignored_partial",
    "C10_alias_reads_foreign_key_refuted"
   ],
   "note": "proved for fields without alias, and for fields with alias whose wire name is the field name and whose type has no inner fields; false when rename and alias are combined (refuted theorem)"
  },
  {
   "property": "C11",
   "status": "proved",
   "theorems": [
    "C11_order",
    "C11_flatten"
   ],
   "note": "C11_order: classes without flattened fields; C11_flatten: flattened dataclasses too, in programs whose classes are not transparent and have no flattened dict; keys pairwise different"
  },
  {
   "property": "C12",
   "status": "proved",
   "theorems": [
    "C12_collects",
    "C12_precedence",
    "C12_nested_flatten_dict_refuted"
   ],
   "note": "flattened dataclasses may be there too; for precedence the rest of the object is what is written if the flattened dicts are empty, of several dicts the first wins, and no flattened dataclass has a flattened dict inside (its entries can be lost, see the refuted theorem)"
  },
  {
   "property": "C13",
   "status": "partial",
   "theorems": [
    "C13_flat_partial",
    "C01_dict_round_trip",
    "C13_rename_all_refuted",
    "C13_optional_refuted",
    "C13_optional_none_refuted"
   ],
   "note": "proved, also for nesting, recursion and formats (C01, C40-C44 cover it), for a flattened dataclass without default whose own fields are not flattened and are named and tagged as in the parent; false for Optional and for a rename_all of the parent that the child does not share"
  },
  {
   "property": "C14",
   "status": "proved",
   "theorems": [
    "C14_to",
    "C14_from",
    "C14_unknown"
   ],
   "note": "unions passed as class argument whose wrapper was not made for another order (C30) and whose member names do not clash; unions in fields: C01 covers the round trip"
  },
  {
   "property": "C15",
   "status": "proved",
   "theorems": [
    "C15_to",
    "C15_from",
    "C15_unknown",
    "C01_dict_round_trip",
    "C15_tag_clash_refuted",
    "C15_deny_refuted"
   ],
   "note": "as C14; the round trip with its side conditions is part of C01, the refuted theorems show that the side conditions are needed"
  },
  {
   "property": "C16",
   "status": "proved",
   "theorems": [
    "C16_to",
    "C16_from",
    "C16_unknown"
   ],
   "note": "as C14"
  },
  {
   "property": "C17",
   "status": "proved",
   "theorems": [
    "C17_first",
    "C17_none",
    "C17_prim",
    "C17_nonetype",
    "C17_class",
    "C17_class_rejects"
   ],
   "note": "unions passed as class argument, with the hypotheses of C14; what a member accepts is characterized for primitives, None and dataclasses, for other types it is the value the generated expression of the member computes"
  },
  {
   "property": "C18",
   "status": "partial",
   "theorems": [
    "C18_foreign_partial",
    "C18_first_partial",
    "C18_member_partial",
    "C18_unfit_partial",
    "C18_literal_refuted",
    "C18_list_refuted"
   ],
   "note": "proved with the exact result for members that are primitives, None, NewTypes, enums, dataclasses, str- and date-like classes; for members of any type proved with the relation fits, which is weaker than being an instance for Literal members and for containers, where the full statement is false"
  },
  {
   "property": "C19",
   "status": "proved",
   "theorems": [
    "C19_accepts",
    "C19_takes",
    "C19_rejects"
   ],
   "note": "Literal fields of dataclasses without alias (see C22) or custom deserializer; C19_takes says the field takes the value, C47_constructor that from_dict then returns the object if the other fields can be read too"
  },
  {
   "property": "C20",
   "status": "proved",
   "theorems": [
    "C20_reads",
    "C20_takes",
    "C20_rejects",
    "C20_value",
    "C20_writes",
    "C20_round_trip"
   ],
   "note": "fields of dataclasses; acceptance and rejection characterized completely for enums of integers and enums of strings"
  },
  {
   "property": "C21",
   "status": "proved",
   "theorems": [
    "C21_writes",
    "C21_same",
    "C21_reads",
    "C21_round_trip"
   ],
   "note": "classes of the fragment of Spec.v; C21_same says that a transparent class holding a dataclass is written exactly like the instance it holds"
  },
  {
   "property": "C22",
   "status": "partial",
   "theorems": [
    "C22_scalar_partial",
    "C22_scalar_takes_partial",
    "C22_optional_partial",
    "C22_container_alias_refuted",
    "C22_class_alias_refuted"
   ],
   "note": "proved for fields of primitive, primitive subclass, NewType and enum type and Optionals of these; false for container and dataclass fields"
  },
  {
   "property": "C23",
   "status": "partial",
   "theorems": [
    "C23_read_partial",
    "C03_keys",
    "C23_rename_alias_refuted",
    "C23_rename_alias_default_refuted"
   ],
   "note": "writing: C03_keys; reading: proved for fields without alias, and for fields with alias whose wire name is the field name and whose type has no inner fields; false when rename and alias are combined"
  },
  {
   "property": "C24",
   "status": "partial",
   "theorems": [
    "C24_to_dict",
    "C24_to_tuple",
    "C24_from_dict_partial",
    "C24_from_tuple_partial",
    "C24_from_dict_union_partial",
    "C24_from_tuple_union_partial",
    "C24_union_cache_refuted"
   ],
   "note": "Proved for every program whose user code does not raise serde's own UserError class: serialization raises SerdeError only; from_dict / from_tuple of any type but a non-Optional union raise SerdeError or what a constructor raised; of a union with a fresh wrapper cache SerdeError only, or the exception of generating the union's code. Refuted without the cache hypothesis: after Union[B, A] was used, Union[A, B] escapes with KeyError."
  },
  {
   "property": "C25",
   "status": "proved",
   "theorems": [
    "C25_strict"
   ],
   "note": ""
  },
  {
   "property": "C26",
   "status": "proved",
   "theorems": [
    "C26_converts",
    "C26_takes",
    "C26_none",
    "C26_error",
    "C26_same"
   ],
   "note": "fields of dataclasses; float fields read without number hook (from_json and from_yaml use one, see C27)"
  },
  {
   "property": "C27",
   "status": "proved",
   "theorems": [
    "C27_json",
    "C27_json_takes",
    "C27_json_rejects",
    "C27_yaml",
    "C27_yaml_takes",
    "C27_yaml_rejects",
    "C27_json_top"
   ],
   "note": "float fields of dataclasses, and float as class argument of from_json"
  },
  {
   "property": "C28",
   "status": "proved",
   "theorems": [
    "C28_json_int_keys"
   ],
   "note": ""
  },
  {
   "property": "C29",
   "status": "partial",
   "theorems": [
    "C29_plain_partial",
    "C29_tuple_partial",
    "C29_any_refuted"
   ],
   "note": "proved when values under Any and elements of bare collections are plain data; false for other values under Any, which are returned unchanged"
  },
  {
   "property": "C30",
   "status": "partial",
   "theorems": [
    "C30_to_partial",
    "C30_from_partial",
    "C30_refuted"
   ],
   "note": "false when the same union was used before with its members in another order; proved when no union in the class argument was"
  },
  {
   "property": "C31",
   "status": "partial",
   "theorems": [
    "C31_iter_types",
    "C31_decorate_partial",
    "C31_factory_refuted"
   ],
   "note": "proved for serialize(cls, ...), deserialize(cls, ...) and @serde(...); false for @serialize(...) and @deserialize(...) with arguments, where the class itself is generated twice when a class without decorator refers back to it"
  },
  {
   "property": "C32",
   "status": "proved",
   "theorems": [
    "C32_unread"
   ],
   "note": ""
  },
  {
   "property": "C33",
   "status": "proved",
   "theorems": [
    "C33_optional"
   ],
   "note": "fields not flattened, without default; no custom deserializer applies"
  },
  {
   "property": "C34",
   "status": "proved",
   "theorems": [
    "C34_serializer",
    "C34_deserializer"
   ],
   "note": "fields without alias, not flattened"
  },
  {
   "property": "C35",
   "status": "partial",
   "theorems": [
    "C35_field_partial",
    "C35_top_partial",
    "C35_refuted"
   ],
   "note": "false as stated: in a field the last one for the declared type is used, at top level the first one for the class of the object; both are proved"
  },
  {
   "property": "C36",
   "status": "partial",
   "theorems": [
    "C36_own_partial",
    "C36_skip_refuted",
    "C36_kw_only_refuted",
    "C02_tuple_round_trip"
   ],
   "note": "false with skipped or keyword-only fields before the field; proved, for sequences of any items, for a field whose predecessors are read exactly when they are constructor parameters, in classes as for C63; true of round trips without such fields (C02)"
  },
  {
   "property": "C37",
   "status": "partial",
   "theorems": [
    "C37_union_partial",
    "C37_own_union_partial",
    "C37_literal_partial",
    "C37_own_literal_partial",
    "C37_literal_refuted",
    "C37_union_refuted"
   ],
   "note": "proved when the names of the union members and the literal values consist of letters and digits; false otherwise"
  },
  {
   "property": "C38",
   "status": "partial",
   "theorems": [
    "C38_kept_partial",
    "C38_nested_partial",
    "C38_field_kept_partial",
    "C38_refuted",
    "C38_field_refuted"
   ],
   "note": "false: the data of a field of type T of the class passed to from_dict is kept as it is (proved); proved in the case that works: the class passed to from_dict is generic and hands its type variable on to a generic class in the type of a field"
  },
  {
   "property": "C39",
   "status": "partial",
   "theorems": [
    "C39_long_partial",
    "C39_short_partial",
    "C39_top_partial",
    "C39_too_long_refuted",
    "C39_too_short_refuted"
   ],
   "note": "false: surplus elements are ignored in fields, missing ones are accepted at the top level; proved: a field is a tuple of the declared size fixed by its first elements, data that is too short is rejected in fields if a missing element looks at its data, and data that is too long is rejected at the top level"
  },
  {
   "property": "C40",
   "status": "proved",
   "theorems": [
    "C40_json_round_trip"
   ],
   "note": "codec abstract; int(str(z)) = z assumed"
  },
  {
   "property": "C41",
   "status": "proved",
   "theorems": [
    "C41_yaml_round_trip",
    "eqv_same"
   ],
   "note": ""
  },
  {
   "property": "C42",
   "status": "proved",
   "theorems": [
    "C42_toml_round_trip",
    "eqv_same"
   ],
   "note": ""
  },
  {
   "property": "C43",
   "status": "proved",
   "theorems": [
    "C43_msgpack_round_trip"
   ],
   "note": "without ext_dict"
  },
  {
   "property": "C44",
   "status": "proved",
   "theorems": [
    "C44_pickle_round_trip"
   ],
   "note": ""
  },
  {
   "property": "C45",
   "status": "partial",
   "theorems": [
    "C14_to",
    "C15_to",
    "C16_to",
    "C45_union_options_refuted"
   ],
   "note": "false; C14_to, C15_to and C16_to say that members of a union are written with the options off whatever options are given"
  },
  {
   "property": "C46",
   "status": "partial",
   "theorems": [
    "C46_member_partial",
    "C46_frozenset_refuted"
   ],
   "note": "false for frozensets; proved for containers without frozensets, literals and unions other than Optional in them, if they are the last member (None aside)"
  },
  {
   "property": "C47",
   "status": "proved",
   "theorems": [
    "C47_constructor",
    "C47_nested",
    "C47_nested_class"
   ],
   "note": "mappings; nested objects: fields holding a dataclass"
  },
  {
   "property": "C48",
   "status": "partial",
   "theorems": [
    "C48_call_partial",
    "C48_factory_partial",
    "C48_factory_refuted"
   ],
   "note": "proved for serialize(cls, ...), deserialize(cls, ...), @serde(...), and for the decorators with arguments when the classes referred to were decorated before; false for @serialize(...) on a class in a cycle"
  },
  {
   "property": "C49",
   "status": "proved",
   "theorems": [
    "C49_to_dict",
    "C49_to_tuple"
   ],
   "note": "the prescribed data is the relation Wire of Spec.v"
  },
  {
   "property": "C50",
   "status": "proved",
   "theorems": [
    "C50_from_dict",
    "C50_from_tuple",
    "C50_unique",
    "C50_hash"
   ],
   "note": "the accepted data is the relation Acc of Spec.v; C50_hash: the values that can be hashed, of which Acc speaks by a function of the model, described independently"
  },
  {
   "property": "C51",
   "status": "proved",
   "theorems": [
    "C51_field",
    "C51_top"
   ],
   "note": "fields of dataclasses whose type is found by its name in the generated code, and dataclasses as class argument"
  },
  {
   "property": "C52",
   "status": "proved",
   "theorems": [
    "C52_dict_round_trip",
    "C52_json_round_trip",
    "C52_yaml_round_trip",
    "C52_msgpack_round_trip",
    "C52_vartuple_refuted",
    "C52_alias_refuted"
   ],
   "note": "not for tuple[C, ...], whose elements are not read at the top level, nor for an alias of an alias, which is an error; sets contain primitives, dict keys are str; unions: C14"
  },
  {
   "property": "C53",
   "status": "proved",
   "theorems": [
    "C53_left_out_restored",
    "C53_zero_refuted",
    "C53_bool_default_refuted",
    "C53_false_refuted",
    "C53_none_refuted"
   ],
   "note": "sharp: defaults that are == to no other value of the field type; nested classes may use any predicate for which the field is restored (safe_skip of Spec.v); the refuted theorems show that the conditions on the default are needed and that skip_if_false has no such guarantee"
  },
  {
   "property": "C54",
   "status": "proved",
   "theorems": [
    "C54_round_trip",
    "C54_no_code",
    "C54_no_type"
   ],
   "note": "the MsgPack library is a parameter with a law for documents and one for extension types; keys of ext_dict are dataclasses"
  },
  {
   "property": "C55",
   "status": "proved",
   "theorems": [
    "C55_to",
    "C55_from"
   ],
   "note": "the code raises the error in the decorator, so that the class does not come to exist; in the model, where generation happens at the first use, every use raises it"
  },
  {
   "property": "C56",
   "status": "partial",
   "theorems": [
    "C56_written_partial",
    "C56_union_refuted",
    "C56_deny_refuted"
   ],
   "note": "proved for annotations made of primitives, collections, and classes, enums, unions and literals that occur in the annotation of a field as well; false for other unions (no function is generated for the union); deny_unknown_fields of the same class rejects what is written"
  },
  {
   "property": "C57",
   "status": "proved",
   "theorems": [
    "C57_serializer",
    "C57_deserializer"
   ],
   "note": ""
  },
  {
   "property": "C58",
   "status": "proved",
   "theorems": [
    "C58_dict_round_trip",
    "C58_json_round_trip",
    "C58_yaml_round_trip",
    "C58_msgpack_round_trip"
   ],
   "note": "for values of the fragment of C01; the options are dropped, see C45, so JSON of a union with a set fails in the library"
  },
  {
   "property": "C59",
   "status": "proved",
   "theorems": [
    "C59_ends",
    "C59_class_var_refuted",
    "C59_default_refuted"
   ],
   "note": "an outcome that is the same for every larger number of nested calls; values are finite trees (no cyclic objects), and the recursion limit of the interpreter is not modelled; the refuted theorems show that the condition on class variables and defaults is needed"
  },
  {
   "property": "C60",
   "status": "proved",
   "theorems": [
    "C60_part"
   ],
   "note": "for flattened dataclasses that are not Optional and have no default"
  },
  {
   "property": "C61",
   "status": "proved",
   "theorems": [
    "C61_bare",
    "C61_frozenset_refuted"
   ],
   "note": "for fields without aliases and deserializers; occurrences are counted for elements without floats and containers, where == is an equivalence; a frozenset is made a set, so that a strict class cannot read back what it wrote (refuted theorem)"
  },
  {
   "property": "C62",
   "status": "proved",
   "theorems": [
    "C62_ends",
    "C62_transparent_refuted",
    "C62_flatten_refuted",
    "C62_tuple_refuted"
   ],
   "note": "an outcome that is the same for every larger number of nested calls; the recursion limit of the interpreter is not modelled; the refuted theorems show that the condition on flattened fields and transparent classes is needed (a text is a sequence of texts, so that nested lists as a transparent class cannot be read from one), and that from_tuple can go on forever without either"
  },
  {
   "property": "C63",
   "status": "proved",
   "theorems": [
    "C63_reads",
    "C63_from_tuple"
   ],
   "note": "soundness of reading for arbitrary data (completeness for the data of well-typed values is C50); of unions other than Optional it is said that some member reads the value (which one is C17); nothing is said of generic classes; the conversions int(), float(), the constructors and fromisoformat are those of the runtime description; nested classes are compared with a from_dict (from_tuple) call of their own for data that is not already an instance"
  },
  {
   "property": "C64",
   "status": "proved",
   "theorems": [
    "C64_to_dict",
    "C64_to_tuple"
   ],
   "note": "soundness of writing for attributes of any values (that well-typed values are written is part of C01); str(), int() and the like are those of the runtime description; nested objects are compared with a call of their own; Any is compared with a to_dict call for the value"
  }
 ]
}