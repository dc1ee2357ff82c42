# Design

Target: pyserde, read as text at /repo. Nothing in /repo is built or run.

## Approach

pyserde generates Python source text for every decorated class and `exec`s it.
The model keeps that two-stage structure:

1. **Code generation** (`se.py` / `de.py`: `Renderer`, `LRenderer`, templates) is modelled by
   total functions from types and field descriptions to a small syntax tree of Python
   expressions.  One branch per branch of the code, with the same variable names, the same key
   strings and the same function names, so that name clashes and wrong variables in the
   generated code are visible in the model.
2. **Execution** of the generated code is an evaluator of that syntax tree.  Exceptions are
   values.  Calls between generated functions, and `to_obj` / `from_obj`, go through one
   fuel-indexed function `run`.  Running out of fuel is a separate result `NoFuel` that no
   theorem accepts as success or as an exception; `Mono.v` proves that a call that returns or
   raises keeps its outcome with more fuel.  Statements of the form
   `exists N, forall n, N <= n -> to_dict ... n ... = Ok x` say that the call terminates with `x`.

Python values, types, classes and field options are ordinary inductive types and records.
Behaviour of external code (constructors of `Path` and the like, `fromisoformat`, the `casefy`
package, `float(str)`, user callbacks, the element beartype picks, the parsers and printers of
JSON, YAML, TOML, MessagePack and pickle) enters as arbitrary functions over which all theorems
quantify; what a theorem needs of them is a hypothesis in its statement.

## Files

| File | Content | /repo |
|---|---|---|
| Base, PyVal, PyType | result type, exceptions, values with `==`, truth, `hash`, ordering; annotations | |
| Program | classes, fields, options, enums, registered (de)serializers, abstract runtime | core.py, se.py, de.py signatures |
| Compat | `typename`, `is_*`, `iter_types`, `iter_unions`, `iter_literals`, `is_instance`, function names | compat.py, core.py |
| Syntax | expressions of generated code | |
| SeRender | `Renderer`, `LRenderer`, field options, templates of serialization | se.py |
| DeRender | `DeField`, `Renderer`, known keys, projections, templates of deserialization | de.py |
| Eval | evaluator, coercion, beartype check, constructor, enum and literal functions, union functions, `to_obj`, `from_obj`, wrapper classes of unions and their cache | se.py, de.py, core.py |
| Formats | options and number hooks of the format modules | json.py, yaml.py, toml.py, msgpack.py, pickle.py |
| Walk | traversal of the class graph during decoration | se.py:200-470, de.py:235-600 |
| Deco | decoration: generation stack, functions generated on the way | se.py:200-470, de.py:235-600 |
| Spec | specification: supported annotations `tyok`, classes `frag_class`, values `wt`; serialized form `Wire`; accepted data `Acc` | |
| SpecFmt | what a format may do to data (`Norm`), sameness up to the order of mapping entries (`same`) | |
| Facts, Mono, Cover, Cache, Depend, SeRT, DeRT, Transport, RoundTrip, Decide | proofs; `Decide` has boolean checks used in examples only | |
| Ex | vocabulary of examples | |
| PropsTrip, PropsWire | C01, C02, C21, C28, C29, C36, C40-C44, C49, C50 | |
| PropsFlat | C13 | |
| PropsIndep | C30 | |
| PropsGlobal | C35, C51 | |
| PropsTuple | C39 | |
| PropsTop | C52 | |
| PropsUTrip | C46, C58 | |
| PropsGen | C38 | |
| PropsName | C23, C37 | |
| PropsSkip | C53 | |
| PropsMore | C54, C55, C56, C57 | |
| PropsSkipFlat | C05, C06 (with flattened dataclasses) | |
| PropsEnd | C59 | |
| PropsREnd | C62 | |
| PropsPart | C60, C12 (with flattened dataclasses) | |
| PropsBare | C61 | |
| PropsElem | C63, C36 (for any sequence) | |
| PropsPut | C64, C18 (members of any type) | |
| PropsSe | C03-C06, C12 (serialization), C34 | |
| PropsDe | C07-C12, C25, C32-C34 | |
| PropsField | C19, C20, C22, C26, C27, C47 | |
| PropsUnion | C01, C02, C40-C44, C49, C50 for fields with functions | a field with serializer and deserializer of its own is written as what the first returns (`coded`) and read as what the second returns (`decoded`); `wt` asks that the two undo each other on the value of the field and that a number, text, boolean or None is written in between |
| C14-C18, C45, C46 | |
| PropsExc | C24 | |
| Deco | C31, C48 | |
| Refuted | claims the code does not meet, each with a concrete program and its data | |

Every `Props*` file ends with `Print Assumptions` of its theorems and has, beside the theorems, examples
that meet their hypotheses.

## Properties and proofs

The list of properties is `properties.jsonl`; `MANIFEST.json` maps each one to theorems and says what is
missing.  Names: `Cnn_..._partial` proves a part of property nn, `Cnn_..._refuted` shows that a claim is
false of the code as it is.

| Property | Proof |
|---|---|
| C01, C02, C13, C21, C28, C29, C36, C40-C44, C49, C50 | Three steps.  (1) serialization of a well typed value yields its `Wire` form (SeRT); (2) the `Wire` form, after what a format may do to it, is in `Acc` (Transport); (3) `Acc` data is read as the value (DeRT).  Induction on the size of the value, then on the type.  `Wire` is shown to be a function (PropsWire). |
| C03-C06, C34 | to_dict characterized statement by statement for classes of any kind |
| C07-C12, C25, C32, C33 | from_dict characterized statement by statement; for C10 and C11 the dependency analysis of Depend.v: a generated expression depends on its input only through the keys it mentions |
| C14-C18, C45, C46 | case analysis of the arms of the union functions |
| C19, C20, C22, C26, C27, C47 | evaluation of the expression generated for a field, from any environment |
| C23, C35, C37-C39 | refuted by computation on a concrete program; what remains true of them is proved, see the next lines |
| C37 | joining names without underscores by underscores is injective (PropsName) |
| C23 | reading: dependency analysis of Depend.v (PropsName); writing: C03 |
| C38 | the generated code of the two fields is opened; the type argument found at run time is computed (PropsGen) |
| C39 | the generated code of a tuple field is opened and evaluated element by element (PropsTuple) |
| C52 | induction on the class argument, with the class round trip (C01) at its leaves (PropsTop) |
| C53 | a default that is == only to itself is compared with the `Wire` form of the value, by induction on the type (PropsSkip); then C01 |
| C58, C46 | the three steps of C01 for the wrapper class that a union as class argument stands for (PropsUTrip) |
| C54 | C43 for the document; the two laws of the library are hypotheses (PropsMore) |
| C55 | `check_field` stops both generators (PropsMore) |
| C56 | the statements for class variables come last; `se_good` for their values (PropsMore) |
| C57 | the call of the function in the generated code, and the rule without it after SerdeSkip (PropsMore) |
| C59 | every call made on a value is on a part of it, on a class variable of its class or on a default it is compared with; induction along this relation, which is well-founded by the condition on classes (PropsEnd) |
| C62 | every call is on data of less weight (nesting of containers), or on the same data for a class of lower rank, or for a part of the union or of the class argument (PropsREnd) |
| C60, C12 | the key sets computed by the generator are those of the classes merged into one (paths of flattened fields, shortened to fit the fuel); to_dict run side by side with the object whose dicts are empty (PropsPart) |
| C61 | evaluation of the constructor call; set() and Counter() by induction over the elements (PropsBare) |
| C63 | induction over the annotation: the code of an element evaluates to a value only from the element it points at; a call for a nested class does not depend on the type arguments passed along when no class is generic; a field marked default_deserializer is rendered as in a class without deserializers, elements included; for from_tuple the same by position, read fields numbered apart from constructor parameters (PropsElem) |
| C64 | induction over the annotation, for any value of the variable; a tuple element whose item is missing is written only by code that never looks at it; members of unions by induction over the annotation as well, for every number of nested calls; a field marked default_serializer is rendered as in a class without serializers (`marked_ty`) (PropsPut) |
| C35, C51 | which serializer or deserializer applies is read off the generated code (PropsGlobal) |
| C24 | case analysis over all outcomes, using an invariant on the exceptions each expression can raise |
| C30 | refuted; proved when no union in the class argument was used before in another order, by showing that evaluation uses the cache of wrapper classes nowhere else (PropsIndep); the union theorems assume that the wrapper class was not made for another order of the members |
| C31, C48 | the worklist terminates because unvisited classes decrease; invariant of the generation stack |

## Trusted base

* The Coq 8.16.1 kernel.
* Assumptions: `Print Assumptions` reports "Closed under the global context" for every theorem
  named in MANIFEST.json.  No axioms are used, neither own nor of the standard library.
  (The gate lists some axioms of `Coq.ssr.ssrunder` because that library module is loaded; no theorem uses them.)
* The reading of /repo recorded in the comment beside each definition, and the following simplifications.

### Modelled

Field options: default, default_factory, init, kw_only, rename, alias, skip, skip_serializing,
skip_deserializing, skip_if, skip_if_false, skip_if_default, skip_if_none, serializer, deserializer, flatten
(dataclass, Optional dataclass, dict).  Class options: rename_all, reuse_instances_default,
convert_sets_default, skip_if_default, skip_if_none, serializer, deserializer (legacy functions), tagging (all four),
type_check (all three), serialize_class_var, transparent, class_serializer, class_deserializer,
deny_unknown_fields.  Global class (de)serializers.  Annotations: the primitives, their subclasses, NewType,
None, Any, Optional, Union, list, Sequence, MutableSequence, set, frozenset, abstract sets, deque, Counter,
dict, Mapping, MutableMapping, defaultdict, tuples of both kinds, the bare forms of all of these,
enums (with mixins), dataclasses, generic dataclasses, type variables, Literal, str-like classes (Path, UUID, Decimal,
ip addresses), date-like classes, ClassVar, type aliases.  Calls: to_dict, to_tuple, from_dict, from_tuple with
their options, including classes, containers, unions and primitives as class argument, and the to_/from_
functions of json, yaml, toml, msgpack (with ext_dict) and pickle.  Decoration of class graphs.

### Not modelled

numpy.py, sqlalchemy.py, inspect.py, `field()` argument checking beyond `check_field`,
lazy annotations and their resolution, logging, dataclass inheritance beyond the list of base classes,
undecorated subclasses that inherit the scope of a decorated class, flag enums with composite members,
bytes, InitVar, class attributes other than serialized class variables, object identity and aliasing of mutable values,
Python's recursion limit, threads.

### Simplifications

* The environment of a generated function holds its parameters and loop variables; the local variables `__field` of
  from_dict are a separate list.  Fields whose names shadow builtins used by generated code are not modelled.
* `int()` and `float()` of objects that are neither numbers nor text go through the abstract constructor.
* A `classdef` holds the options its functions were generated with.  How decoration determines them is the subject of
  Deco.v, which tracks `transparent` and `type_check`; errors raised while code is generated appear as an exception of
  the first call instead of at decoration time.
* `functools.cache` is taken to be transparent.
* A violation reported by beartype on construction is a `SerdeError`.  (The decorators configure it so, se.py:245, de.py:285;
  a class with a beartype decorator of its own, whose violations de.py:1422 converts, is not modelled.)
* Tag strings of internal and adjacent tagging are assumed not to break the quoting of generated code; keys and aliases are checked.
* Round trips (C01 and the like) cover flattened dataclasses within `flat_ok` of Spec.v: no default, no Optional, the child's fields
  not flattened themselves and named and tagged as in the parent.  Refuted.v has counterexamples outside it.
* Skip predicates are part of the round trips where leaving out the field loses nothing: `safe_skip` in `wt` of Spec.v; C53 says for which
  defaults that is so.  Flattened fields and the fields of flattened classes have none.
* Union theorems (C14-C18, C58) are about unions passed as class argument; unions in fields are covered by C01, C49, C50, C63 and C64.
* Round trips cover unions whose members are primitives, None, dataclasses told apart by the tagging, and containers (`union_ok`
  of Spec.v).  A container comes last, followed at most by None, because list() takes apart the text of a later str member.  A mapping is not
  mixed with dataclasses.  Containers in unions hold no frozensets, literals or further unions other than Optional.
* C24 assumes that user code does not raise serde's internal `UserError` class.
* Parsers and printers are abstract (`codec`); the round trips of formats assume `codec_law`: reading what was
  written returns the data up to `Norm`.

## Seeded changes

`seeded/LOG.jsonl` has one line per wrong program tried. `failed` lists the theorems of the manifest whose proofs no
longer go through when the definition is edited as described, directly or through a lemma. A proof that no longer goes
through does not by itself show that the statement is false of the edited model. `(file does not build)` marks theorems
in a file where the failing proof was not isolated. Lines with a `note` that begins with "void" are edits that do not
typecheck; they say nothing about the theorems and were redone. An empty `failed` without such a note is a change that no
theorem noticed at that time; `tightened` names the theorems added or strengthened because of it.
