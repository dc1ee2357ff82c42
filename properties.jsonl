{"id": "C01", "title": "Dict round trip", "statement": "For every class of the supported fragment and every well-typed instance x, from_dict(C, to_dict(x)) succeeds and returns exactly x (fields may have a serializer together with a deserializer that undoes it), for every combination of the reuse_instances / convert_sets / skip_none options that the two calls can agree on and for every type_check mode.", "quantifier": "all class tables (including recursive and mutually recursive classes), all field types built from the supported constructors to any depth, all values, all option combinations, all random choices of the type checker", "why_tests_cant": "Tests try a fixed list of classes and values; nesting depth, recursion between classes and combination of field types are unbounded.", "anchors": ["serde/se.py:Renderer.render", "serde/se.py:to_obj", "serde/de.py:Renderer.render", "serde/de.py:from_obj", "serde/de.py:render_from_dict"]}
{"id": "C02", "title": "Tuple round trip", "statement": "For every class of the supported fragment without skipped, keyword-only, aliased or flattened fields and every well-typed instance x, from_tuple(C, to_tuple(x)) returns exactly x.", "quantifier": "all class tables, all supported field types, all values, all options", "why_tests_cant": "Same unbounded space as the dict round trip; positional encoding additionally depends on every field position.", "anchors": ["serde/se.py:render_to_tuple", "serde/de.py:render_from_iter", "serde/de.py:to_iter_arg"]}
{"id": "C03", "title": "Serialized key set and order", "statement": "to_dict of an instance of a class without flattened fields, skip predicates and skip_none returns a dict whose keys are exactly the wire names (rename, else rename_all of the name, else the name) of the non-skipped fields, in declaration order.", "quantifier": "all classes, all instances on which to_dict succeeds, all option values", "why_tests_cant": "The claim ranges over every subset of skipped fields and every naming option.", "anchors": ["serde/se.py:render_to_dict", "serde/se.py:LRenderer.render", "serde/core.py:conv"]}
{"id": "C04", "title": "Skipped fields never leak", "statement": "The result of to_dict and to_tuple does not depend on the value of a field declared with skip=True or skip_serializing=True: changing only such values leaves the output (or the raised error) unchanged.", "quantifier": "all classes without flattened children, all pairs of instances differing only in skipped fields, all options", "why_tests_cant": "Non-interference relates two executions for every possible secret value; a test sees single executions.", "anchors": ["serde/se.py:jinja2_env dict template", "serde/se.py:jinja2_env iter template"]}
{"id": "C05", "title": "skip_if decides on the serialized value", "statement": "A field with an effective skip predicate is emitted under its wire name iff the predicate is false on its serialized value; with several skip options set the one used is skip_if, then skip_if_false, then skip_if_default, then skip_if_none, and the field level flag overrides the class level one.", "quantifier": "all classes, all fields, all user predicates, all values", "why_tests_cant": "The predicate is arbitrary user code and the precedence table has 2^6 combinations.", "anchors": ["serde/core.py:Field.from_dataclass", "serde/se.py:jinja2_env dict template"]}
{"id": "C06", "title": "skip_none drops exactly the None fields", "statement": "With skip_none=True, to_dict omits a non-flattened field without its own skip predicate iff its serialized value is None, and all the other entries are what skip_none=False produces.", "quantifier": "all classes, all instances, all options", "why_tests_cant": "Relates two runs for every instance.", "anchors": ["serde/se.py:jinja2_env dict template"]}
{"id": "C07", "title": "A missing required field is reported", "statement": "from_dict on a mapping that lacks the wire name of a required plain field (no default, not flattened, its type not a union with None, None or a tuple of such) never returns an object, and when all earlier fields deserialize it raises SerdeError with a message that names that field and class.", "quantifier": "all classes, all mappings lacking the key", "why_tests_cant": "Every class and every incomplete mapping.", "anchors": ["serde/de.py:jinja2_env dict template"]}
{"id": "C08", "title": "Defaults", "statement": "A plain field with default or default_factory whose wire name (and every alias) is absent from the mapping gets the default; when the key is present the value comes from the data and the default is not consulted.", "quantifier": "all classes, all mappings", "why_tests_cant": "Every combination of present and absent defaulted keys (2^n).", "anchors": ["serde/de.py:Renderer.default", "serde/core.py:Field.supports_default"]}
{"id": "C09", "title": "deny_unknown_fields rejects every unknown key", "statement": "For a class with deny_unknown_fields=True and no flattened field, from_dict raises SerdeError whenever the mapping has a key that is neither a wire name nor an alias of a field; and it never rejects a mapping for that reason otherwise.", "quantifier": "all classes, all mappings", "why_tests_cant": "All keys outside a finite set: infinitely many inputs.", "anchors": ["serde/de.py:_collect_known_fields", "serde/de.py:get_known_fields"]}
{"id": "C10", "title": "Unknown keys are ignored by default", "statement": "For a class without deny_unknown_fields and without flattened fields, adding, removing or changing keys that are not wire names or aliases of fields does not change the result of from_dict.", "quantifier": "all classes, all pairs of mappings that agree on the known keys", "why_tests_cant": "Relates every pair of mappings.", "anchors": ["serde/de.py:jinja2_env dict template", "serde/de.py:DeField.data"]}
{"id": "C11", "title": "Key order does not matter", "statement": "Permuting the entries of the input mapping does not change the result of from_dict for a class without flattened dict.", "quantifier": "all classes, all mappings, all permutations", "why_tests_cant": "n! orders for every mapping.", "anchors": ["serde/de.py:jinja2_env dict template"]}
{"id": "C12", "title": "Flattened dict collects exactly the unknown keys", "statement": "from_dict puts into a flattened dict field exactly the entries of the mapping whose key is not known to the class, and on serialization declared fields take precedence over entries of the flattened dict.", "quantifier": "all classes with a flattened dict, all mappings", "why_tests_cant": "Every mapping and every overlap between declared and extra keys.", "anchors": ["serde/de.py:jinja2_env dict template", "serde/se.py:jinja2_env dict template", "serde/compat.py:is_flatten_dict"]}
{"id": "C13", "title": "Flattened dataclass round trip", "statement": "A class with a flattened dataclass field serializes the child's fields at the level of the parent and from_dict(C, to_dict(x)) returns x whenever parent and child wire names do not clash.", "quantifier": "all parent and child classes, all instances", "why_tests_cant": "Every pair of classes, every naming option on either.", "anchors": ["serde/se.py:Renderer.dataclass", "serde/se.py:LRenderer.flatten", "serde/de.py:_project_flattened_data"]}
{"id": "C14", "title": "Externally tagged unions", "statement": "For a Union of dataclasses with distinct names under external tagging the serialized form is {name: fields} and deserializing any such one-entry mapping selects exactly the class with that name.", "quantifier": "all unions of any number of classes, all members, all values", "why_tests_cant": "Any number of variants in any order.", "anchors": ["serde/se.py:jinja2_env union template", "serde/de.py:jinja2_env union template"]}
{"id": "C15", "title": "Internally tagged unions", "statement": "Under InternalTagging(tag) the serialized form is the class's own mapping with tag set to the class name, and deserialization selects the class named by the tag; it round trips when no field of the variant uses the tag as wire name and the variant tolerates the extra key.", "quantifier": "all unions, tags, members, values", "why_tests_cant": "Interaction of the tag with every possible field name.", "anchors": ["serde/se.py:jinja2_env union template", "serde/de.py:jinja2_env union template"]}
{"id": "C16", "title": "Adjacently tagged unions", "statement": "Under AdjacentTagging(tag, content) with tag different from content the form is {content: fields, tag: name} and deserialization selects the class named by the tag and uses only the content.", "quantifier": "all unions, tags, contents, members, values", "why_tests_cant": "As C15.", "anchors": ["serde/se.py:jinja2_env union template", "serde/de.py:jinja2_env union template"]}
{"id": "C17", "title": "Untagged and primitive unions pick the first fitting variant", "statement": "A union value is deserialized by the first variant, in declaration order, whose deserialization succeeds and type-checks; when none does the call raises SerdeError, and no other exception escapes from a union.", "quantifier": "all unions, all data", "why_tests_cant": "Every input against every order of variants.", "anchors": ["serde/de.py:jinja2_env union template"]}
{"id": "C18", "title": "Union serialization rejects foreign objects", "statement": "Serializing, as a union, an object that is an instance of no member raises SerdeError; otherwise the first matching member determines the form.", "quantifier": "all unions, all objects", "why_tests_cant": "Every object.", "anchors": ["serde/se.py:jinja2_env union template", "serde/core.py:is_instance"]}
{"id": "C19", "title": "Literals", "statement": "A Literal field accepts data iff it equals one of the listed values and then returns the data unchanged; otherwise SerdeError.", "quantifier": "all literal types, all data", "why_tests_cant": "Every datum.", "anchors": ["serde/de.py:jinja2_env literal template", "serde/core.py:literal_func_name"]}
{"id": "C20", "title": "Enum round trip, also as stringified key", "statement": "For every enum whose member values are plain and pairwise different, deserializing the serialized member returns the member; for integer valued enums the decimal string of the value is accepted too, and a value of no member is rejected.", "quantifier": "all enums, all members, all data", "why_tests_cant": "Every enum definition.", "anchors": ["serde/core.py:deserialize_enum", "serde/se.py:enum_value"]}
{"id": "C21", "title": "Transparent classes are invisible on the wire", "statement": "A class with transparent=True serializes as its single field's value and deserializes from it, without any wrapper mapping, and round trips.", "quantifier": "all transparent classes of the supported fragment, all values", "why_tests_cant": "Every inner type.", "anchors": ["serde/core.py:get_transparent_field", "serde/se.py:jinja2_env transparent_dict", "serde/de.py:jinja2_env transparent_dict"]}
{"id": "C22", "title": "Aliases are accepted", "statement": "A field with alias names can be deserialized from a mapping that has the value under the field's name or under any of the aliases, the name winning over aliases and earlier aliases over later ones.", "quantifier": "all classes, all field types, all alias lists, all mappings", "why_tests_cant": "Every field type and every subset of the alias names present.", "anchors": ["serde/de.py:_get_by_aliases", "serde/de.py:Renderer.primitive", "serde/de.py:Renderer.enum", "serde/de.py:Renderer.opt"]}
{"id": "C23", "title": "rename overrides rename_all, on both sides", "statement": "The wire name of a field is its rename if given, else its name converted by rename_all, else its name; serialization and deserialization use the same wire name, also in combination with alias.", "quantifier": "all classes, all naming options", "why_tests_cant": "Every combination of naming options and field types.", "anchors": ["serde/core.py:conv", "serde/core.py:Field.conv_name", "serde/de.py:to_arg"]}
{"id": "C24", "title": "Only SerdeError or the user's own exception escapes", "statement": "from_dict and from_tuple on any data either return or raise SerdeError or an exception raised by the class's own constructor (__init__/__post_init__); to_dict and to_tuple either return or raise SerdeError.", "quantifier": "all classes, all data, all values, all custom (de)serializers raising arbitrary exceptions", "why_tests_cant": "Every malformed input.", "anchors": ["serde/de.py:from_obj", "serde/se.py:to_obj"]}
{"id": "C25", "title": "Strict type check", "statement": "With type_check=strict, whenever from_dict returns an object, every constructor argument taken from the data has the declared type (exactly for scalar types; for collections the outer type and every element the checker looks at).", "quantifier": "all classes, all data, all random choices of the checker", "why_tests_cant": "Every datum and every random choice.", "anchors": ["serde/de.py:deserialize", "serde/de.py:jinja2_env dict template"]}
{"id": "C26", "title": "Coercion", "statement": "With type_check=coerce, a non-None datum for a field of primitive type is converted with the constructor of that type, None is rejected with SerdeError, and any conversion error surfaces as SerdeError; a datum that already has the type is unchanged.", "quantifier": "all classes, all data", "why_tests_cant": "Every datum.", "anchors": ["serde/core.py:coerce_object", "serde/de.py:Renderer.primitive"]}
{"id": "C27", "title": "Number coercion of JSON and YAML", "statement": "from_json accepts an integer for a float field and converts it, never accepts a boolean or a string for a float; from_yaml in addition accepts numeric strings.", "quantifier": "all data", "why_tests_cant": "Every datum.", "anchors": ["serde/json.py:deserialize_json_numbers", "serde/yaml.py:deserialize_yaml_numbers", "serde/de.py:Renderer.primitive"]}
{"id": "C28", "title": "Numeric dict keys survive JSON", "statement": "A dict with int keys serialized with to_json, whose keys are therefore strings in the document, deserializes to the same dict; likewise enum keys with integer values.", "quantifier": "all dicts, all integers", "why_tests_cant": "Every integer.", "anchors": ["serde/de.py:Renderer.dict_key", "serde/core.py:deserialize_enum"]}
{"id": "C29", "title": "Output is made of plain data", "statement": "With reuse_instances=False and convert_sets=True the result of to_dict on a well-typed instance consists only of None, bool, int, float, str, list, tuple and dict, at every depth.", "quantifier": "all classes of the supported fragment, all values", "why_tests_cant": "Every depth and every combination of types.", "anchors": ["serde/se.py:Renderer.set", "serde/se.py:Renderer.render"]}
{"id": "C30", "title": "Calls do not depend on earlier calls", "statement": "Deserializing or serializing with a union passed directly to the API gives the same result whatever unions were used before in the same process.", "quantifier": "all histories of calls", "why_tests_cant": "The result may depend on an unbounded history through the process-wide cache.", "anchors": ["serde/core.py:Cache._get_union_class", "serde/core.py:Cache._generate_union_class", "serde/core.py:UnionCacheKey"]}
{"id": "C31", "title": "Code generation terminates on cyclic class graphs", "statement": "Decorating a class visits every class reachable through non-skipped fields exactly once and terminates, also when classes refer to each other cyclically.", "quantifier": "all class graphs", "why_tests_cant": "Every cyclic graph.", "anchors": ["serde/compat.py:iter_types", "serde/se.py:GENERATION_STACK"]}
{"id": "C32", "title": "skip_deserializing fields ignore the input", "statement": "from_dict never reads the value of a field marked skip or skip_deserializing: the field gets its default whatever the mapping holds under its name.", "quantifier": "all classes, all mappings", "why_tests_cant": "Every mapping.", "anchors": ["serde/de.py:renderable", "serde/de.py:render_from_dict"]}
{"id": "C33", "title": "Optional fields", "statement": "An Optional field without default is None iff its key is absent or maps to None; otherwise it is deserialized as the inner type.", "quantifier": "all classes, all mappings, all inner types", "why_tests_cant": "Every mapping.", "anchors": ["serde/de.py:Renderer.opt"]}
{"id": "C34", "title": "Custom field (de)serializers are used exactly once per field", "statement": "A field with a custom serializer / deserializer is converted by it and nothing else, overriding class-level and global custom (de)serializers.", "quantifier": "all classes, all user functions", "why_tests_cant": "Arbitrary user functions.", "anchors": ["serde/se.py:Renderer.custom_field_serializer", "serde/de.py:Renderer.custom_field_deserializer"]}
{"id": "C35", "title": "The last registered global serializer wins", "statement": "If several globally registered class serializers handle a type, the one registered last is used, wherever an object of that type is serialized.", "quantifier": "all registration sequences", "why_tests_cant": "Every registration history.", "anchors": ["serde/core.py:add_serializer", "serde/se.py:Renderer.render", "serde/se.py:find_global_class_serializer"]}
{"id": "C36", "title": "Positional (tuple) deserialization binds each value to its own field", "statement": "from_tuple(C, to_tuple(x)) assigns each serialized value to the field it came from, for every class whose from_dict(C, to_dict(x)) round trips.", "quantifier": "all classes including skipped, keyword-only and aliased fields", "why_tests_cant": "Every placement of skipped and keyword-only fields.", "anchors": ["serde/de.py:render_from_iter", "serde/de.py:jinja2_env iter template"]}
{"id": "C37", "title": "Distinct unions and literals get distinct functions", "statement": "Two different union (or literal) types used in one class are handled by different generated functions, so that each field is (de)serialized according to its own type.", "quantifier": "all pairs of union or literal types", "why_tests_cant": "Every pair of type names.", "anchors": ["serde/core.py:union_func_name", "serde/core.py:literal_func_name"]}
{"id": "C38", "title": "Type arguments of generic classes are honoured", "statement": "from_dict(Foo[A], data) deserializes a field of type T as A.", "quantifier": "all generic classes and arguments", "why_tests_cant": "Every instantiation.", "anchors": ["serde/compat.py:get_generic_arg", "serde/de.py:from_obj"]}
{"id": "C39", "title": "Fixed-size tuples keep their length", "statement": "Data with a different number of elements than a fixed-size tuple type is rejected.", "quantifier": "all tuple types, all data", "why_tests_cant": "Every length.", "anchors": ["serde/de.py:Renderer.tuple", "serde/de.py:from_obj"]}
{"id": "C40", "title": "JSON round trip", "statement": "from_json(C, to_json(x)) == x for well-typed instances of the supported fragment, assuming only that the JSON library returns the document's data with tuples as lists and int, bool, float and None keys as strings.", "quantifier": "all classes, all values", "why_tests_cant": "As C01, composed with the data changes made by the document format.", "anchors": ["serde/json.py:to_json", "serde/json.py:from_json"]}
{"id": "C41", "title": "YAML round trip", "statement": "from_yaml(C, to_yaml(x)) is x up to the order of mapping entries (hence == x), assuming only that the YAML library returns the document's data with tuples as lists and mapping entries possibly reordered.", "quantifier": "all classes and values of the supported fragment, with and without number coercion and skip_none", "why_tests_cant": "As C01, composed with the data changes made by the document format.", "anchors": ["serde/yaml.py:to_yaml", "serde/yaml.py:from_yaml"]}
{"id": "C42", "title": "TOML round trip", "statement": "from_toml(C, to_toml(x)) is x up to the order of mapping entries whenever the TOML library can write the document; with skip_none (the default) it is enough that fields holding None may be absent.", "quantifier": "all classes and values of the supported fragment", "why_tests_cant": "As C01, composed with the data changes made by the document format.", "anchors": ["serde/toml.py:to_toml", "serde/toml.py:from_toml"]}
{"id": "C43", "title": "MsgPack round trip", "statement": "from_msgpack(C, to_msgpack(x, named=b), named=b) returns exactly x, for both encodings, assuming only that the library may exchange lists and tuples.", "quantifier": "all classes and values of the supported fragment (classes usable positionally when named=False)", "why_tests_cant": "As C01, composed with the data changes made by the document format.", "anchors": ["serde/msgpack.py:to_msgpack", "serde/msgpack.py:from_msgpack"]}
{"id": "C44", "title": "pickle round trip", "statement": "from_pickle(C, to_pickle(x)) returns exactly x.", "quantifier": "all classes and values of the supported fragment", "why_tests_cant": "As C01.", "anchors": ["serde/pickle.py:to_pickle", "serde/pickle.py:from_pickle"]}
{"id": "C45", "title": "Options of to_dict also apply to unions", "statement": "to_dict(x, Union[...], reuse_instances=r, convert_sets=s, skip_none=k) serializes the fields of x as to_dict(x, reuse_instances=r, convert_sets=s, skip_none=k) does.", "quantifier": "all unions, objects and options", "why_tests_cant": "Every combination of options and nested contents.", "anchors": ["serde/se.py:to_obj", "serde/core.py:Cache.serialize_union"]}
{"id": "C46", "title": "Every container type can be a union member", "statement": "A value of a container type that is a member of a union and that was serialized as this union is accepted again when deserialized as this union.", "quantifier": "all unions with container members, all values", "why_tests_cant": "All container types and contents.", "anchors": ["serde/compat.py:typename", "serde/de.py:render_union_func"]}
{"id": "C47", "title": "Exceptions of constructors escape unchanged", "statement": "If the data of a class can be read, from_dict returns or raises exactly what the constructor (with __post_init__) of the class returns or raises when called with the field values; an exception of the constructor of a nested object escapes from from_dict unchanged, without being wrapped in SerdeError.", "quantifier": "all classes, all constructors, all mappings, any depth of nesting", "why_tests_cant": "Every constructor and every nesting.", "anchors": ["serde/de.py:from_obj", "serde/core.py:UserError", "serde/de.py:jinja2_env dict template"]}
{"id": "C48", "title": "Decorator options are the ones in effect", "statement": "The transparent and type_check options given to a decorator of a class are the ones its generated functions and its constructor use, whatever classes are found and generated on the way.", "quantifier": "all class graphs, all orders of visiting, all states of earlier decorations", "why_tests_cant": "Every cyclic graph and every visiting order of the set of found types.", "anchors": ["serde/se.py:serialize", "serde/de.py:deserialize", "serde/se.py:GENERATION_STACK"]}
{"id": "C49", "title": "The serialized form of an instance", "statement": "to_dict (to_tuple) of a well-typed instance terminates and returns exactly the data that the annotations prescribe: entries under the wire names in field order, values written per annotation, unions tagged by the class option, sets, dates, paths and enums converted per the options; no other result is possible.", "quantifier": "all classes of the supported fragment, all well-typed instances, all options of the call", "why_tests_cant": "Every depth and every combination of annotations.", "anchors": ["serde/se.py:to_dict", "serde/se.py:to_tuple", "serde/se.py:Renderer.render", "serde/se.py:render_to_dict", "serde/se.py:render_to_iter"]}
{"id": "C50", "title": "Data that stands for an instance is read as it", "statement": "from_dict (from_tuple) returns the instance for all data that stands for it: any order of keys, unknown keys unless denied, aliases, integers as text for int keys and int enums, any sequence for a list, absent entries that have a default; and data stands for at most one instance.", "quantifier": "all classes of the supported fragment, all accepted data", "why_tests_cant": "Every arrangement of keys and every mixture of alternative spellings at every depth.", "anchors": ["serde/de.py:from_dict", "serde/de.py:from_tuple", "serde/de.py:Renderer.render", "serde/de.py:render_from_dict"]}
{"id": "C51", "title": "Which global or class deserializer applies", "statement": "A field without deserializer of its own is read by the last of the deserializers for its declared type, counting the global ones in order of registration and then the one given to the class; it is called with the declared type and the entry of the field. A class passed to from_dict is read by the first registered global deserializer for it.", "quantifier": "all lists of registered deserializers, all classes, all entries", "why_tests_cant": "Every registration order and every overlap of handled types.", "anchors": ["serde/de.py:from_obj", "serde/de.py:Renderer.render", "serde/core.py:add_deserializer", "serde/core.py:GLOBAL_CLASS_DESERIALIZER"]}
{"id": "C52", "title": "Containers as class argument round trip", "statement": "from_dict(T, to_dict(v)) returns v for a container type T passed as class argument: lists, deques, sets, dicts, Optionals, fixed tuples and aliases of dataclasses, primitives, str-like classes (Path, UUID ...) and dates, nested in any way; likewise through JSON, YAML and MsgPack.", "quantifier": "all such types T, all values v of T, all options, all format libraries that read back what they write up to the changes of the format", "why_tests_cant": "Every nesting of containers and every content.", "anchors": ["serde/se.py:to_obj", "serde/de.py:from_obj", "serde/de.py:from_dict", "serde/json.py:from_json", "serde/yaml.py:from_yaml", "serde/msgpack.py:from_msgpack"]}
{"id": "C53", "title": "Fields left out for their value are restored", "statement": "An instance of a class that uses skip_if_default or skip_if_none, as an option of the class or of single fields, is restored by from_dict(C, to_dict(v)): a field is left out only if reading its absence gives the value it had. (This needs a default that is == to no other value of the field: 0.0 for a float field that holds -0.0, or True for an int field that holds 1, change the value; and a field under skip_if_none must be None when absent.)", "quantifier": "all such classes, all well-typed instances, all options of the call", "why_tests_cant": "Every default and every value, in particular values equal but not identical to the default.", "anchors": ["serde/core.py:skip_if_default", "serde/core.py:Field.from_dataclass", "serde/se.py:render_to_dict", "serde/de.py:Renderer.default"]}
{"id": "C54", "title": "MsgPack extension types", "statement": "An object written by to_msgpack(x, named=b, ext_dict=E) with a code for its class is returned by from_msgpack(c, s, named=b, ext_dict=F) when F maps the code to the class, whatever c is passed. A class without code in E, or a code without class in F, is a SerdeError.", "quantifier": "all classes and values of the supported fragment, all ext_dicts, both encodings, all format libraries that return the code and the data they were given", "why_tests_cant": "Every pair of dictionaries and every value.", "anchors": ["serde/msgpack.py:to_msgpack", "serde/msgpack.py:from_msgpack", "serde/msgpack.py:MsgPackSerializer.serialize"]}
{"id": "C55", "title": "Misused field options are rejected", "statement": "A class with flatten on a field that is neither a dataclass, an Optional dataclass nor a dict with str keys and Any values (or a bare dict), or with skip_deserializing on a constructor argument that has no default (and is not skipped), can be used neither for serialization nor for deserialization: SerdeError.", "quantifier": "all classes whose default factories return, all other fields and options, all objects and data", "why_tests_cant": "All annotations and all combinations with other options.", "anchors": ["serde/core.py:Field.from_dataclass", "serde/se.py:sefields", "serde/de.py:defields"]}
{"id": "C56", "title": "Class variables are written like fields", "statement": "With serialize_class_var=True, to_dict contains an entry for every ClassVar[T] of the class, under its name after rename_all; its value is the serialized form of the class variable as a T.", "quantifier": "all classes, all class variables and annotations", "why_tests_cant": "Every annotation and every value of class variables.", "anchors": ["serde/core.py:fields", "serde/se.py:sefields", "serde/se.py:Renderer.render"]}
{"id": "C57", "title": "serializer= and deserializer= of a class", "statement": "The function given as serializer= (deserializer=) of a class is applied to every field for which neither the field nor a global or class (de)serializer gives a more specific one: it gets the annotation and the value (the entry, None if there is none) and what it returns is the result; if it raises SerdeSkip the field is treated as if the function were not there.", "quantifier": "all such functions, all classes, all values; fields annotated with a primitive, an enum, a dataclass, or a type converted to str or in ISO format", "why_tests_cant": "Every function and every mixture of handled and skipped types.", "anchors": ["serde/se.py:serde_legacy_custom_class_serializer", "serde/de.py:serde_legacy_custom_class_deserializer", "serde/se.py:Renderer.render", "serde/de.py:Renderer.render"]}
{"id": "C58", "title": "Unions as class argument round trip", "statement": "from_dict(U, to_dict(v, cls=U)) returns v for a union U, tagged in any way but Untagged, whose members are primitives, None, dataclasses with different names unrelated by inheritance, and containers after the other members; whatever options are passed. Likewise through JSON, YAML and MsgPack if the library can write the data.", "quantifier": "all such unions, all values of their members, all options, all format libraries that read back what they write up to the changes of the format", "why_tests_cant": "Every union, every member, and every value nested in it.", "anchors": ["serde/se.py:to_obj", "serde/de.py:from_obj", "serde/core.py:Cache", "serde/se.py:render_union_func", "serde/de.py:render_union_func"]}
{"id": "C59", "title": "Serialization ends", "statement": "to_dict and to_tuple of any value, as any class and with any options, return or raise after finitely many nested calls, also for classes that refer to themselves or to each other; provided the user's functions do, no class brings along objects of its own (in class variables that are written, or as defaults of fields left out when equal to their default), and different unions have different names.", "quantifier": "all programs of that kind, all values, also ones that do not fit their annotations, all class arguments and options", "why_tests_cant": "Recursion through classes, unions, flattened fields, class variables and defaults is unbounded in every direction.", "anchors": ["serde/se.py:to_obj", "serde/se.py:render_to_dict", "serde/se.py:render_to_tuple", "serde/se.py:render_union_func", "serde/core.py:skip_if_default"]}
{"id": "C60", "title": "What a flattened dataclass is read from", "statement": "from_dict reads a flattened dataclass field as from_dict of its class would read the mapping with exactly these entries, in their order: those whose key belongs to the class (the names and aliases of its fields and of what is flattened into it), and those whose key is unknown to the outer class, unless they are gathered by a flattened dict of the outer class and there is none in the inner one. So keys of other fields do not count as unknown for deny_unknown_fields of the inner class.", "quantifier": "all classes with a flattened dataclass field without default and deserializers, all mappings", "why_tests_cant": "Every split of keys between the two classes, at every depth of flattening.", "anchors": ["serde/de.py:_project_flattened_data", "serde/de.py:_collect_known_fields", "serde/de.py:jinja2_env dict template"]}
{"id": "C61", "title": "Containers without element type", "statement": "A field annotated list, Sequence, tuple, deque, set, Counter, dict or Mapping without type arguments is read from any iterable without looking at the elements: sequences hold them in their order, a set holds each of them once, a Counter maps each of them to the number of its occurrences (and takes over the counts of a mapping), a mapping is taken as it is.", "quantifier": "all classes with such a field, all data for it (sequences, sets, mappings, texts), all elements", "why_tests_cant": "Every iterable and every element that may be in it.", "anchors": ["serde/de.py:Renderer.list", "serde/de.py:Renderer.set", "serde/de.py:Renderer.deque", "serde/de.py:Renderer.counter", "serde/de.py:Renderer.tuple", "serde/de.py:Renderer.dict"]}
{"id": "C62", "title": "Deserialization ends", "statement": "from_dict of any data, as any class argument and with any options, returns or raises after finitely many nested calls, also for classes that refer to themselves or to each other; provided the user's functions do, no class reaches itself by way of a field that is read from the data of the class itself (a flattened field or the field of a transparent class), and different unions have different names.", "quantifier": "all programs of that kind, all data, also data that does not fit the class, all class arguments (containers, unions, generic classes, aliases) and options", "why_tests_cant": "Recursion through classes, unions, containers and type arguments is unbounded in every direction, and so is the data.", "anchors": ["serde/de.py:from_obj", "serde/de.py:render_from_dict", "serde/de.py:render_union_func", "serde/de.py:Renderer.render"]}
{"id": "C63", "title": "Containers are read element by element", "statement": "Whatever data from_dict accepts: the attribute of a field holds what its annotation makes of the entry, by these rules. A list, deque, set or tuple of any length holds the elements of the datum in order (a set each once, all of them values that can be hashed), each read by the element type; a tuple with fixed types reads its i-th element from item i, drops further items, and needs no item for None. A dict holds the entries of a mapping with keys and values read by their types, keys of number types converted and all of them hashable; among keys read as equal the last decides. Optional keeps None. An enum gives the first member whose value equals the datum, or if there is none, the datum as a tuple or the text converted to the type of the values. Primitives are taken over unchecked or converted, texts and dates reused or constructed, literals are among their values, a class is read as from_dict of that class reads it. For any other union, some member reads the value, from what the tagging provides for it and without coercion, and the type check accepts the value for that member. For a list, tuple or deque accepted by from_tuple the same rules hold, with nested classes read by from_tuple too: item i is read by the annotation of the i-th field that is read, and the value goes to the i-th parameter of the constructor, which is another field when one that is not read stands before it.", "quantifier": "all programs without global deserializers, generic classes and name clashes, all fields without flatten and alias to which no deserializer applies because there is none in the field or its class or because the field is marked default_deserializer (the marker holds for elements at every depth), all annotations built of these (which member of a union is taken is C17), all mappings and (for from_tuple) sequences, also ones no serializer writes, all options", "why_tests_cant": "Every nesting of containers and every datum of any size, of the right or another shape.", "anchors": ["serde/de.py:Renderer.list", "serde/de.py:Renderer.set", "serde/de.py:Renderer.tuple", "serde/de.py:Renderer.dict", "serde/de.py:Renderer.dict_key", "serde/de.py:Renderer.opt", "serde/de.py:Renderer.dataclass", "serde/de.py:render_from_iter", "serde/core.py:deserialize_enum"]}
{"id": "C64", "title": "Values are written element by element", "statement": "Whatever objects to_dict and to_tuple write, also ones whose attributes are not of the annotated types: the entry of a field (in the tuple form: the element at the position of the field) is what its annotation makes of the attribute, by these rules. For a list, deque or tuple of any length, the elements of whatever iterable the attribute is, in order, each written by the element type; for a set the same, each once, or all of them as a list when sets are converted. For a tuple with fixed types the i-th element is written from item i; further items are left out, and None needs no item. For a dict or Counter, the entries of a mapping with keys and values written by their types, as a plain dict; among keys written as equal the last decides. Optional keeps None. For an enum the value of the member, followed through members that are values of members; anything else is looked up in the enum first. Primitives are taken over, or converted in classes that coerce; texts and dates are reused or turned into strings; an object is written in the same form with the same options, by its own class rather than the annotated one. For any other union, the first member that the value fits, in the dict form, tagged if it is a dataclass; of a list, set, deque or dict only the first element must fit, of a tuple every one, and any value fits a Literal.", "quantifier": "all programs without global serializers and name clashes, all fields without flatten to which no serializer applies because there is none in the field or its class or because the field is marked default_serializer (the marker holds for elements at every depth), all annotations built of these (nothing is said of class variables, see C56), all attribute values, all options; the entry may be missing only by a skip option or, with skip_none, for None", "why_tests_cant": "Every nesting of containers and attributes of any size, of the annotated or another type.", "anchors": ["serde/se.py:Renderer.list", "serde/se.py:Renderer.set", "serde/se.py:Renderer.tuple", "serde/se.py:Renderer.dict", "serde/se.py:Renderer.counter", "serde/se.py:Renderer.opt", "serde/se.py:Renderer.dataclass", "serde/se.py:enum_value"]}
