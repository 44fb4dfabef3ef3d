# A Rocq model of pydantic-xml

## What is modelled

All of the XML binding logic of `/repo/pydantic_xml`, as total Gallina functions that follow the Python
branch by branch.  Python exceptions are values (`Raise`), loops are structural or carry fuel whose
exhaustion is the distinct result `Fuel` (more fuel never changes another result: `PfFuel.v`).

| file of the model | code it models |
|---|---|
| `Base.v` | Python data: strings, insertion-ordered dicts, list updates |
| `Elem.v` | `element/element.py` (XmlElement, the three searchers), `element/utils.py` |
| `Names.v` | `utils.py` (QName, merge_nsmaps, select_ns, register_nsmap), `config.py`, `__init_subclass__` of `model.py` |
| `Fields.v` | `fields.py` (XmlEntityInfo, merge, attr/element/wrapped) |
| `Native.v` | `element/native/lxml.py`, `element/native/std.py` |
| `Errs.v` | `errors.py`, `utils.py` (into_validation_error, set_validation_error_sourceline) |
| `Ser.v` | run-time serializer objects and model classes (data types) |
| `Build.v` | `serializers/serializer.py` (Context, preprocess_schema, select_serializer), every `from_core_schema`, the success path of `__build_serializer__` |
| `Write.v` | every `serialize` method of `serializers/factories/*.py`, `encode_primitive` |
| `Read.v` | every `deserialize` method, `_check_extra` |
| `Api.v` | `from_xml_tree`, `to_xml_tree` |
| `Text.v` | `from_xml`, `to_xml` over an abstract printer and parser |
| `Classes.v` | `model.py`: class statements with several bases, `create_model`, `XmlModelMeta`, `__build_serializer__`, `model_rebuild`; `fields.py`: alias arguments, computed field decorators; `compat.py` |
| `Heap.v`, `HeapRead.v` | element operations and the union loop over an explicit heap with references, for aliasing properties |
| `HeapRead2.v`, `HeapWrite.v` | every `deserialize` and `serialize` method, `from_xml_tree` and `to_xml_tree` once more, over that heap (new elements share the nsmap dictionaries of the classes) |
| `Prog.v`, `ProgRead.v`, `ProgWrite.v` | the methods of `Heap.v`, `HeapRead2.v` and `HeapWrite.v` once more, as trees of single memory accesses between which another thread may run |
| `Context.v` | every `deserialize` method, `from_xml_tree` and `from_xml` with the `context` argument, which `Read.v` leaves out |
| `Calls.v` | the calls of user code (validations of model classes, field validators) every `deserialize` method makes, in order |
| `WCalls.v` | the calls of field serializers every `serialize` method makes, in order |
| `Decorate.v` | `xml_field_validator`, `xml_field_serializer` of `fields.py` and the calls of the functions they mark |
| `Mypy.v` | `mypy.py`, over the expressions of a field declaration |

`Spec*.v` hold the small independent specifications, `Pf*.v` the proofs, `Prop*.v` the theorem
statements, each closed by `exact` or a short proof, with `Print Assumptions` and a concrete instance
beside it.  `Samples.v` has the classes and documents of the instances.

## What is not modelled

* the XML parsers and printers themselves (`etree.fromstring`, `etree.tostring`): arguments of the functions in `Text.v`.  The one
  theorem about text that needs something from them (C58) has the hypothesis `faithful` (SpecText.v): what was printed parses
  to the same tree up to empty texts, prefix declarations and lines.  PropText.v proves it of a printer to parser events;
* pydantic validation and `to_jsonable_python`: oracles (record fields / function arguments), never axioms. The
  validation oracle answers with an instance, a ValidationError or any other exception of user code (`verdict`).
  Where a theorem needs something from them it is a visible hypothesis;
* user callbacks (custom xml serializers / validators): functions of the model class record;
* pydantic's schema generation: the builder starts from the core schema, `Classes.v` from pydantic's
  `__pydantic_complete__` flag and field metadata;
* Python classes are identified by name; class attributes assigned by hand are left out;
* `XmlElement.__repr__` and the like, defining classes in several threads at once, memory, running time other than the number of calls of user code (C78). Of `mypy.py` the classes of mypy and pydantic's own plugin (its answers are an argument).

## How each property is treated

| id | model | specification | method |
|---|---|---|---|
| C01-C03 | `search` of Elem.v | SpecElem | specification by list splitting, case analysis and induction over the child list |
| C04 | sequences of takes | SpecElem, SpecOwn | children labelled by identity; invariant: handed-out children are those left of the cursor / permutation |
| C05 | `read` of Read.v | SpecElem | invariant `next <= length children` at every node, induction over fuel and serializers (PfSafe) |
| C06 | `from_xml_tree` | SpecRead | invariant C05 plus well-formed environment, induction over fuel |
| C07 | `read` with fuel | SpecRead | explicit measure; fuel monotonicity; refutation by an unbounded run (PfTerm, PfLoop) |
| C08 | `write` with fuel | SpecWrite | measure on values (PfWTerm) |
| C09 | pop functions | SpecElem | direct |
| C10 | `read` | SpecRead | multiset conservation, induction over fuel (PfCount) |
| C11 | `get_unbound`, `_check_extra` | SpecElem | declarative relation "datum at path" and exact correspondence (PfUnbound, PfExtra) |
| C12 | the same and `from_xml_tree` | SpecElem, SpecStray (elements without data) | correspondence of C11; simulation with unequal child lists (PfStray) |
| C13-C15 | Names.v | SpecNames | string lemmas, induction over lists |
| C16 | `init_subclass` folded over a chain | SpecNames | induction over the chain |
| C17 | Fields.v | SpecNames | induction over the list |
| C18, C19, C46 | Build.v | SpecBuild | `declared`: what a declaration means, independent of contexts; induction over schema fuel (PfBuild-PfBuild5) |
| C20, C21 | Write.v + Read.v | SpecRound | what comes back of a value (`kept`), classes that keep fields apart (`apart`), both for readers with and without `empty_as_string`; induction over written values (PfRound1-8); refutations by computation |
| C22 | Write.v | SpecWrite | induction over fuel, predicate on all emitted sub-trees |
| C23 | Write.v | SpecWrite | case analysis per serializer; field loop with None fields removed (PfMore) |
| C24, C25 | Write.v / Read.v | SpecWrite, SpecSim | simulation between the model and the restricted model |
| C26, C27 | Write.v | SpecWrite | invariant `next = length children`, prefix preservation |
| C28 | `find_sub_element` | SpecRead2 | induction over the path |
| C29-C31 | Read.v / Write.v | SpecRead2, SpecWrite | induction over the loop |
| C32 | union reader | SpecRead2 | induction over variants |
| C33 | Heap.v, HeapRead2.v, HeapWrite.v | SpecHeap, SpecHeap2, SpecHeap3 | reachability/frame argument over heaps; on trees without sharing the heap operations are those of Elem.v (PfHeap-6); the readers and writers over references give what Read.v and Write.v give (PfHeap7-10) |
| C34-C36 | Read.v / Write.v | SpecRead2, SpecWrite | case analysis, relation for the dispatch on the discriminator |
| C37, C38, C49 | Native.v + Read.v | SpecSim | simulation relations between documents preserved by every reader (PfSim-3) |
| C39 | Read.v | SpecStray | simulation with unequal child lists (PfStray) |
| C40 | Api.v | | direct |
| C41, C42 | Errs.v, Read.v | SpecRead2, SpecLines | induction over the location; invariant of the source map (PfMap, PfLines); refutation by computation |
| C43 | Read.v / Write.v | SpecWrite | field-loop lemmas |
| C44, C45 | Native.v, Write.v | SpecSim | tree induction; simulation between back ends (PfWSim) |
| C47, C48 | Names.v | SpecNames | string induction; finite case analysis |
| C50, C56 | Classes.v: C3 linearisation, class statements | SpecClasses: `lineage`, without any linearisation | the linearisation extends the orders of the bases and has no repetitions; invariant of all classes of a module; induction over the module (PfClasses) |
| C51 | Classes.v: collecting loop | SpecClasses, SpecNames (`is_last`, `is_first`) | induction over the attributes from the end; permutations |
| C52 | Classes.v: states and rebuild calls | SpecClasses | induction over the history of calls |
| C53, C57 | Classes.v | SpecClasses | case analysis; induction over the applications |
| C54 | Classes.v: the regular expression as a scanner | SpecClasses (`denotes`) | string induction |
| C55 | Build.v, Write.v, Read.v | SpecClasses | induction over the fields |
| C58 | Text.v | SpecText: `faithful` printer and parser, `reparsed` trees | simulation of C49 with empty texts forgotten, composed with C20 (PfText) |
| C59 | Write.v, Native.v | SpecPrefix | invariant of every written sub-tree (PfPrefix) |
| C60 | Read.v, Write.v, Api.v | SpecIndep | simulation between the two families of classes (PfIndep) |
| C61 | Build.v, Write.v, Read.v | SpecIndep, SpecBuild | field-loop lemmas, C18, C60 |
| C62 | Build.v | SpecMeans: typing rules from types and annotations to bindings, without contexts or fuel | soundness by induction over fuel (PfMeans), completeness and uniqueness by induction over the rules (PfMeans2-4); core schemas carry their definitions at the top, as pydantic builds them |
| C63 | Errs.v (encode_primitive, py_str), Write.v | SpecScalar: decimal numerals by Horner's rule, `written_as`, `shown_as`, `empty_value` | case analysis; induction over the digits for integers (PfScalar) |
| C64 | HeapRead2.v, HeapWrite.v | SpecHeap3: `run_calls`, `alone` | every operation of a call changes only cells the call itself created (PfHeap7-10); induction over the calls. Simplification: the tree of the parser is a value, not part of the heap |
| C65 | Elem.v, Read.v | SpecModes: `strict_env`, `orderly_env`, `no_bare_elements` | a strict read takes a segment of the elements ahead; at the end nothing is left (extra data is forbidden, nothing is empty), so going backwards what is ahead of a field consists of the elements of the fields after it, in turn; hence a field's element is the next one or there is none, and all searches find the same (PfModes-3). Refutations for each dropped condition |
| C66 | Elem.v, Read.v | SpecStray: `same_but_order`, `siblings_differ` | the simulation of C39 (PfStray) up to permutation of what lies ahead; refutations for repeated names and for ordered mode |
| C67 | Read.v, Api.v | SpecGrow: `new_field`, `grown`, `without_new`, `same_but_new` | an invariant of reading (no new names below the element, PfRel) under which new fields read nothing, then a simulation of the two readings; refutation for a wrapped field that shares its path with old data |
| C68 | Read.v, Api.v | SpecSub: `part`, `input_from`, `made_from`, `without_nil`, `with_tag` | an invariant of reading (children after the cursor are untouched, `made_from`) carried through every serializer together with the provenance of its value; reading a model does not depend on error locations, source map or the class's own element name (PfSub), so the sub-reading is a `from_xml_tree` |
| C69 | Mypy.v | SpecMypy: `calls`, `keyword`, `gives_default` | the loops over the arguments find the keyword, which is unique; witnesses for what the plugin misses |
| C70 | Write.v, Api.v | SpecOut: `draft`, `piece`, `puts`, the relations `writes` and `document` | elements and drafts in step (`rep`); every derivation is a run (rule induction), every run has a derivation (induction on fuel and serializer) |
| C71 | Context.v, Read.v | SpecContext: `all_in_context`, `differ_in_other_contexts` | every reader with a context equals the reader of Read.v with the context built into the oracle (induction on fuel) |
| C72 | Decorate.v, Classes.v | SpecDecorate: `validates`, `serializes`, `gets` over lists of decorators | induction over the list of decorators; composed with C51 |
| C73 | Read.v, Elem.v, Native.v | SpecLayout: `env_texts` (whose text is read), `same_but_texts`, `indent`, `indentable` | two runs side by side, the relation indexed by the element's tag and by being inside a raw element; composed with C20 and C58 for pretty printing |
| C74 | Prog.v, ProgRead.v, ProgWrite.v | SpecThread: `run_threads` over a schedule, `turns`, `accesses`, `local` | two runs of a program on two memories are in step if the objects they made correspond (logical relation `in_step`, PfThread2, every method, reader and writer); each thread is kept in step with its run alone while the others only touch their own objects (PfThread3); without interruption a program does what the heap models say (PfThread1), so C64 gives the result. Granularity: one access is a whole element, dict or list; finer steps cannot matter because no object is written by one thread and accessed by another |
| C75 | Names.v, Fields.v, Build.v, Write.v, Read.v, Api.v | SpecAlias: `re_class`, `re_env`, `re_native`, ... replace every prefix by `f` of it | every function of the builder commutes with the renaming (PfAlias: dict lookups and updates because `f` is injective, the tests for the empty prefix because `f "" = ""`; induction over contexts and fuel); every writer commutes with it and every reader ignores it (PfAlias2). Each condition on `f` has a counterexample without it |
| C76 | Read.v, Write.v, Api.v | SpecStable: `steady` (classes and pydantic), `retold`, `leaves_out_missing`, `again` | the provenance of every value (C68, now with what lists, tuples and texts look like) is turned, serializer by serializer, into the hypotheses of the round trip C20, by induction on the size of the document (PfStable) |
| C77 | Read.v, Write.v, Api.v | SpecCrash: `raises_more` (same classes, user code that raises instead in any set of cases), `foreign` | two runs in lockstep: equal, or the first has raised one of the new exceptions; induction on fuel (PfCrash) |
| C78 | Calls.v on top of Read.v | SpecCalls: `elements`, `levels`, `at_most_wide` (size of a document), `count`, `frugal` (unions of at most k variants, validators that only read), `same_classes`, `agree`, `raises` | a budget per element (children ahead times the price of trying every variant) that pays for every call, also when reading goes on after an error (PfCalls), evaluated for parsed documents (PfCalls2); two runs in lockstep for the meaning of the list of calls (PfCalls3); a family of documents by induction on depth |
| C79 | Write.v, Api.v | SpecSwitch: `more_switches`, `left_out` (a tree with texts, attributes and elements removed), `neat` (fields that do not overwrite each other, shared wrappers next to each other) | what each field does to an element that has room for it, and that room is left for the next field (PfSwitch, PfSwitch2); two runs on an element and a pruned copy of it; induction on fuel |
| C80 | WCalls.v on top of Write.v | SpecWCalls: `value_at`, `instances`, `called_properly`, `runs_serializer`, `serializers_upto`, `same_writers`, `yields` | two runs in lockstep for the meaning of the list of calls (PfWCalls); every call lies below the place its writer was called for, and places of different items and fields differ, by induction on fuel and the loops (PfWCalls2) |
| C81 | Errs.v, Read.v, Calls.v | SpecErrors: `class_leads` (where a location leads), `complaints` (the errors a call of user code gives), `tells` (error lines pass on complaints in order) | what every reader's outcome says about the calls it has made, with errors gathered under keys, by induction on fuel and the loops (PfErrors); refutations by computation |
| C82 | Fields.v, Build.v, Write.v, Read.v, Elem.v | SpecNest: `nest_info` / `nest` (every path written out as nested wrappers), `same_class`, `same_env` (equal but for that) | two runs side by side, by induction on the sum of their fuel (one step of one wrapper against several of the other), for the builder (PfNest3, PfNest4), writing (PfNest) and reading (PfNest2); refutations by computation |
| C83 | Read.v, Elem.v | SpecAttrs: `attrs_in` (which attributes a field reads of which elements), `same_but_attrs` (equal but for the others) | two runs side by side with equal outcomes, by induction on fuel (PfAttrs); with C39 and C07 by induction on the number of revisions; refutations by computation |
| C84 | Read.v, Elem.v | SpecPage: a `page` (what has been passed, what is ahead, attributes and text left) and inductive rules `reads_model` for reading one, without cursor, snapshots or fuel; an answer is a value, a refusal with title and `remark`s (location, type, text, input), or a user exception | the element a reader holds `shows` a page (PfPage); readers follow the rules by induction on fuel (PfPage2); the rules are obeyed by the readers by mutual induction on derivations (PfPage3); whole documents and built classes (PfPage4) |
| C85 | Write.v, Read.v | SpecEvolve: `evolved` classes (old fields in order, new attributes, new elements), `trimmed_instance` (the value without new fields); documents by SpecOut (C70), differences by SpecAttrs and SpecStray | drafts of both versions are related while pieces are put (PfEvolve); the new classes write the old pieces and new ones, by mutual induction on `writes` (PfEvolve2); the documents differ by unread attributes and unknown elements (PfEvolve3), processing instructions aside (PfEvolve4); then C83 |
| C86 | Write.v, Read.v | SpecTail: `looks_for` (names asked for, any mode), `same_but_tail` (more children at the end), `appended` (no old child field behind a new one) | the element in work with and without the trailing children: cursor within the common part, a search that goes past it finds nothing in either (PfTail, induction on fuel); documents of appended fields differ at the end only (PfEvolve..PfEvolve3 with `late`); then C83, C20 |
| C87 | Build.v, Write.v, Read.v | SpecRename: `renaming` (one to one), `renamed` (values), `renamed_verr`, `renamed_class`, `renamed_inst` (values with their encodings), `renamed_top`/`name_free` (declarations), `renamed_bmodel` | the two runs side by side by induction on fuel: reading (PfRename), writing (PfRename2), building with contexts that differ in names only (PfRename3); examples rename by exchanging names |
| C88 | Write.v | SpecSeen: `seen_at`/`seen_inst` (two values that look the same through a field, a class) | the two runs side by side by induction on fuel (PfSeen); the declared part of an instance by filtering its attributes |
| C89 | Read.v, Write.v | SpecMoved: `rearranged` (the fields on the element itself in the same order, the fields on sub-elements in the same order), `moved_val`, `moved_error`, `moved_env` | writing: fields on the element itself and fields on sub-elements commute (PfMoved); reading: each kind sees and changes its own part of the element only, so a run over mixed fields is the two runs put together (PfMoved2), then the two programs side by side by induction on fuel (PfMoved3) |
| C90 | Write.v, Read.v, Api.v | the vocabulary of C20 and C58 | a document determines what is read from it, and what is read from it is the value (C20, C58) |
| C91 | Read.v | SpecSwap: `takes` (the parts of an element a field is read from), `apart`, `any_order`, `at_most_once`, `redeclared` | in terms of the rules of C84: in unordered mode a field reads the same from two pages that agree on the parts it takes, and leaves the other parts alone (PfSwap, PfSwap2), hence fields that are apart can be read in any order (PfSwap3) |
| C92 | Read.v, Write.v | SpecMembers: `shuffled` (members of unions in another order, at any place), `names_differ`, `tags_differ`, `classes_differ` | a member whose element is not next leaves element and source map as they are, so neighbours can be swapped; a second search for the same name finds the same; induction over permutations, then over fuel (PfMembers) |
| C93 | Read.v, Write.v, Api.v | SpecMany: `sole` (fields bound to one element), `made_lists`, `in_lists` (the data given to pydantic), `placed` (locations with the place 0), `relisted`; SpecPage for the rules of reading | on the rules of reading of C84: a list of such a field takes the element the field takes and then finds no other, since no rule adds children to a page (`fewer`); from fields to classes to documents (PfMany, PfMany2); writing on the rules of writing of C70 (PfMany3) |
| C94 | Read.v, Write.v, Api.v | SpecWider: `not_called` (no element of these names, at any depth), `rewidened` (unions with other members of these names, at any place), `rewidened_env` | on the rules of reading of C84: pages stay free of the names; a member whose element is not there answers nothing, so it can be put anywhere; induction over the rules, the relation is symmetric (PfWider); writing on the rules of C70, with `no_instance` of the classes of these members in the value (PfWider2) |
| C95 | Read.v, Write.v, Api.v | SpecOneOf: `no_nil` (no nil element of these names, at any depth), `made_unions` (sub-models, at any place of a field, that are unions of the one member) | on the rules of reading of C84: without nil elements a sub-model and a union of one member end on the same page; then lists, tuples, wrappers and fields whose answers are all values (PfOneOf); writing: equal functions for `exact_for` values, by induction over that (PfOneOf2) |
| C96 | Read.v, Api.v | SpecLoose: `loosened_env` (validators that accept the same and more, extra data allowed where it was forbidden), `union_free` | on the rules of reading of C84: by induction over the rules, for answers that are values (PfLoose) |

No property of the list is inexpressible in the model.  Apart from C58 they are stated about the native trees the parser
returns and the printer receives.

## Theorems named `_refuted`

A theorem `Cnn_..._refuted` gives a concrete run of the model (checked by computation) in which a stronger
or more natural form of property Cnn fails.  They document where the code does something a user may not expect:

* C06/C49: a processing instruction inside a raw field makes `from_xml` fail with a TypeError;
* C07: a collection read from the element's own text does not end under `empty_as_string`;
* C19: for a nested wrapper the outer namespace map wins over the inner one;
* C21: what does not survive a round trip (a None text read as "" with `empty_as_string` because its wrapper has other content, computed fields with `forbid`, nil text of sub-models, wrappers
  split by another field, fields with the same name, lists of unions, nil attributes, mapping values);
* C22/C23: a wrapper stays although it is empty; `exclude_none` does not reach mappings and tagged unions;
* C29: in the unordered mode a list is not in document order;
* C32/C42: variants and sub-models with the same class or field names get each other's errors or lines;
* C35: `xsi:nil="1"` is not recognised but removed;
* C36: an attribute field declared before a mapping takes its attribute out of it;
* C37/C38: text after a comment is lost; attributes with the same local name clash in mappings;
* C21: a nil item ends a list when it is read back; C22: a wrapped raw element without children is dropped by `skip_empty`;
* C24: `exclude_unset` drops computed fields; C30: a bad item behind an unknown element is reported twice;
* C35: a nil attribute is taken away even when it is not "true"; C37: a processing instruction stops the strict search;
* C41: an error reported under a validation alias gets no line;
* C39: strict mode stops at the first unknown element; duplicates in unordered mode;
* C43: custom functions are ignored for the root of a root model;
* C46: some schemas fail with AssertionError, KeyError or endless recursion instead of a definition error;
* C50: with several bases the first one hides the tag of the others, and a diamond does not follow Python's attribute rule;
* C51/C52: two methods for one field (result changes from run to run), methods named like a pydantic attribute, functions in annotations
  resolved late, forced rebuilds;
* C53: `wrapped(alias=...)` is ignored; C54: "v2.12.0" is version 0; C55: NoXml on a root field;
* C58: indented output is read differently; C59: raw elements lose their prefix declarations;
* C56: `__module__` and `__cls_kwargs__` of `create_model` have no effect; C57: a computed field decorator works once;
* C69: the mypy plugin looks for `attr`, `element` and `wrapped` in a module they are not defined in;
* C70: a raw element is changed when a wrapper with its name is written after it;
* C72: `xml_field_serializer` on a class or static method has no effect; decorator order.
* C73: text where extra data is forbidden is reported; the tail of a raw element is part of its value;
* C75: giving the default namespace a prefix, or two prefixes one name, changes what a class is bound to;
* C76: without the flags an absent attribute comes back as an empty text; empty mappings, empty texts, defaults and shifted tuples;
* C77: a field validator that raises a ValidationError inside a union does not stop reading: the next member is tried;
* C78: nested unions may validate exponentially often in the depth of the document;
* C79: a mapping of all attributes takes the place of those written before it; wrappers merge when the field between them
  is left out; None in a mapping element cannot be written with `skip_empty`;
* C80: a custom serializer for the root of a root model is ignored;
* C81: two members with the same class name report only one's errors; extra data is not reported together with other errors;
* C82: nested wrappers differ from a path in prefixes declared by the wrapper and in the lines of errors;
* C83/C86: attributes and elements nobody asks for count for mappings, raw elements and with `extra='forbid'`;
* C85: new fields break old readers between fields of one wrapper, with `skip_empty`, in strict mode and with `forbid`;
* C87/C89: renaming or moving a field changes the lines of errors of other fields of the same name; the order of elements
  in strict mode, and that of an attribute and a mapping, matters;
* C88: an instance of a subclass of a member of a union is not written at all; C90: None and "" are written alike;
* C91: with fields in another order lists take other elements in the unordered mode;
* C92: outside the strict mode the first member whose element is anywhere ahead is taken, not the first element;
* C93: a name that occurs twice; None, which is an empty element for a field and nothing for a list;
* C94: documents with elements of the new members; C95: a nil element is not passed by a union and hides the fields behind
  it in strict mode, errors get the name of the member, instances of subclasses are left out;
* C96: a member of a union that accepts more takes documents away from those behind it.

## Trusted base

* Coq 8.16.1's kernel (and `vm_compute`'s virtual machine where used for concrete instances).
* The reading of the Python source recorded in the comments of the model files.
* Axioms: none.  `Print Assumptions` says "Closed under the global context" for every theorem `Cnn_...` of every `Prop*.v`.
  `coqchk -silent -o` on all `Prop*` modules says the same: no axioms, no type-in-type, no unguarded fixpoints, no assumed positivity.
  The development declares no axiom, parameter or section-less variable.  A count of axioms
  in the loaded libraries finds seven, `Coq.ssr.ssrunder.Under_rel.*` (the module type used by ssreflect's `under`);
  no theorem depends on them.
