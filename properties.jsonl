{"id": "C01", "title": "strict search never skips an element", "statement": "With search_mode='strict' a field bound to tag T takes the next unread child of its element if that child is called T, and otherwise takes nothing and leaves the read position where it was; no child is ever skipped.", "quantifier": "every element, every read position, every tag", "why_tests_cant": "unbounded documents and read positions", "anchors": ["pydantic_xml/element/element.py::strict_search", "pydantic_xml/element/element.py::XmlElement.pop_element"]}
{"id": "C02", "title": "ordered search takes the first match ahead and never goes back", "statement": "With search_mode='ordered' a field bound to tag T takes the first not yet passed child called T (children before it are passed over for good); if no such child exists nothing is taken and the read position does not move.", "quantifier": "every element, every read position, every tag", "why_tests_cant": "unbounded documents and read positions", "anchors": ["pydantic_xml/element/element.py::ordered_search"]}
{"id": "C03", "title": "unordered search finds any remaining match and loses nothing", "statement": "With search_mode='unordered' a field bound to tag T takes the first child called T among all children not yet taken, wherever it is; the children not taken remain available for later fields, none is lost or duplicated.", "quantifier": "every element, every history of earlier takes, every tag", "why_tests_cant": "depends on the whole history of swaps", "anchors": ["pydantic_xml/element/element.py::unordered_search"]}
{"id": "C04", "title": "no child element is handed to two fields", "statement": "Over any sequence of field reads on one element, in any mix of search modes, the children handed out by successive takes are pairwise different children of the original document element.", "quantifier": "every element, every sequence of takes (tags and modes)", "why_tests_cant": "histories of unbounded length", "anchors": ["pydantic_xml/element/element.py::XmlElement.pop_element", "pydantic_xml/element/element.py::ordered_search", "pydantic_xml/element/element.py::unordered_search"]}
{"id": "C05", "title": "the read position stays inside the document", "statement": "No sequence of reads, wrapper look-ups, union attempts and rollbacks moves the read position of an element beyond its children, so looking one element back never fails with IndexError.", "quantifier": "every document, every model, every run of from_xml including failing ones", "why_tests_cant": "needs every document and every failure point", "anchors": ["pydantic_xml/element/element.py::_look_behind", "pydantic_xml/element/element.py::XmlElement.step_forward", "pydantic_xml/serializers/factories/union.py::ModelSerializer.deserialize"]}
{"id": "C06", "title": "from_xml raises only documented errors", "statement": "For every model built without errors and every document tree, from_xml_tree returns a model instance, raises ParsingError (only when the root tag differs) or raises pydantic ValidationError (or an exception of the user's own validators); it never leaks IndexError, KeyError, TypeError or AttributeError. Documents with processing instructions inside raw fields are the exception.", "quantifier": "every model, every document, both search behaviours and both empty_as_string settings", "why_tests_cant": "every malformed document must be covered", "anchors": ["pydantic_xml/model.py::BaseXmlModel.from_xml_tree", "pydantic_xml/serializers/factories/model.py::ModelSerializer.deserialize"]}
{"id": "C07", "title": "from_xml terminates", "statement": "from_xml_tree terminates for every document on every model in which each item of every collection is read from a sub-element; a collection of primitive unions with no element name and empty_as_string=True does not terminate.", "quantifier": "every model, including self-referential models, every document", "why_tests_cant": "termination cannot be observed by a test", "anchors": ["pydantic_xml/serializers/factories/homogeneous.py::ElementSerializer.deserialize", "pydantic_xml/serializers/factories/model.py::ModelProxySerializer.deserialize"]}
{"id": "C08", "title": "to_xml terminates", "statement": "to_xml_tree terminates for every model value, including values of self-referential models of any depth.", "quantifier": "every model, every value", "why_tests_cant": "unbounded nesting", "anchors": ["pydantic_xml/model.py::BaseXmlModel.to_xml_tree", "pydantic_xml/serializers/factories/model.py::ModelProxySerializer.serialize"]}
{"id": "C09", "title": "text and attributes are consumed once", "statement": "Reading the text, one attribute or all attributes of an element yields the datum the first time and nothing afterwards, and leaves every other datum of the element unchanged.", "quantifier": "every element, every attribute name", "why_tests_cant": "every element state", "anchors": ["pydantic_xml/element/element.py::XmlElement.pop_text", "pydantic_xml/element/element.py::XmlElement.pop_attrib", "pydantic_xml/element/element.py::XmlElement.pop_attributes"]}
{"id": "C10", "title": "a document datum is bound at most once", "statement": "from_xml never copies a piece of document text or an attribute value into two places of the model input: every string handed to pydantic validation is taken from its own, distinct text or attribute of the document.", "quantifier": "every model, every document", "why_tests_cant": "needs all interleavings of fields, lists, wrappers, unions", "anchors": ["pydantic_xml/element/element.py::XmlElement", "pydantic_xml/serializers/factories/model.py::ModelSerializer.deserialize"]}
{"id": "C11", "title": "extra='forbid' accepts exactly the fully consumed documents", "statement": "A model with extra='forbid' whose fields were all read without error raises ValidationError 'extra_forbidden' iff some non-blank text, tail or some attribute of its element or of any descendant was not bound; there is exactly one error per such datum, with its tag path (and @attribute) as location, its value as input and the line of its element.", "quantifier": "every document and every set of bound data", "why_tests_cant": "the set of possible extra data is unbounded", "anchors": ["pydantic_xml/element/element.py::XmlElement.get_unbound", "pydantic_xml/serializers/factories/model.py::BaseModelSerializer._check_extra"]}
{"id": "C12", "title": "extra='forbid' does not see empty unknown elements", "statement": "Adding to a document any number of elements that no field asks for and that carry no text, tail or attributes, themselves or below, changes nothing, even with extra='forbid': the same value is read, or the same error up to line numbers (in ordered search mode; in unordered mode when no two siblings share a tag).", "quantifier": "every forbidding model and document extended with empty unknown elements", "why_tests_cant": "universal over insertions", "anchors": ["pydantic_xml/element/element.py::XmlElement.get_unbound"]}
{"id": "C13", "title": "qualified names round-trip", "statement": "For a non-empty namespace and a tag without '}' (neither with line breaks), splitting the written name '{ns}tag' gives back ns and tag; two entities with different (namespace, tag) never get the same written name.", "quantifier": "every namespace string and tag string", "why_tests_cant": "all strings", "anchors": ["pydantic_xml/utils.py::QName.from_uri", "pydantic_xml/utils.py::QName.uri"]}
{"id": "C14", "title": "namespace alias resolution", "statement": "An element alias resolves to the URI declared for it; without an alias an element takes the default ('') namespace and an attribute takes none; an undeclared alias is a ModelError whenever at least one namespace is declared, and is silently ignored when none is.", "quantifier": "every tag, alias and namespace map", "why_tests_cant": "all maps and aliases", "anchors": ["pydantic_xml/utils.py::QName.from_alias", "pydantic_xml/serializers/factories/primitive.py::AttributeSerializer"]}
{"id": "C15", "title": "namespace inheritance and priority", "statement": "merge_nsmaps gives each prefix the URI of the first map declaring it; select_ns returns the first namespace that is not None (the empty string counts).", "quantifier": "every list of maps / namespaces", "why_tests_cant": "lists of any length", "anchors": ["pydantic_xml/utils.py::merge_nsmaps", "pydantic_xml/utils.py::select_ns"]}
{"id": "C16", "title": "class parameters are inherited", "statement": "A subclass's tag, ns, ns_attrs, skip_empty, search_mode are the nearest explicitly given value along its inheritance chain, and its nsmap is the union of the chain's maps with the nearest declaration of a prefix winning.", "quantifier": "every chain of subclass declarations", "why_tests_cant": "chains of any length", "anchors": ["pydantic_xml/model.py::BaseXmlModel.__init_subclass__"]}
{"id": "C17", "title": "field metadata merging", "statement": "Merging several element()/attr()/wrapped() annotations of one field gives, for each parameter, the last one that is set; nsmaps are united with later ones winning per prefix; merging is associative and an annotation with nothing set is neutral.", "quantifier": "every list of annotations", "why_tests_cant": "lists of any length", "anchors": ["pydantic_xml/fields.py::XmlEntityInfo.merge", "pydantic_xml/fields.py::extract_field_xml_entity_info"]}
{"id": "C18", "title": "name selection order", "statement": "A primitive, mapping or raw element (or attribute) is named by its explicit tag, else alias, else field name; a sub-model by its explicit tag, else the model's tag, else alias, else field name, else class name; empty strings count as absent.", "quantifier": "every combination of present and absent names", "why_tests_cant": "all combinations for every builder path", "anchors": ["pydantic_xml/serializers/factories/primitive.py::ElementSerializer.from_core_schema", "pydantic_xml/serializers/factories/model.py::ModelProxySerializer.from_core_schema"]}
{"id": "C19", "title": "namespace scoping of nested entities", "statement": "An entity's namespace is its own ns, else that of the nearest enclosing wrapper or model that has one; a prefix is resolved in the entity's own nsmap first (for a sub-model: the field's, then the sub-model's) and then in those of the enclosing wrappers and class, the outermost first. Attributes use only their own ns unless the class sets ns_attrs, and never the default namespace.", "quantifier": "every nesting of wrappers inside a model", "why_tests_cant": "nesting of any depth", "anchors": ["pydantic_xml/serializers/serializer.py::Serializer.Context.parent_ns", "pydantic_xml/serializers/serializer.py::Serializer.Context.parent_nsmap", "pydantic_xml/serializers/factories/wrapper.py::ElementPathSerializer.from_core_schema"]}
{"id": "C20", "title": "round trip", "statement": "For a model whose fields use distinct element and attribute names, and a value with no data XML cannot carry (no empty string, no empty collection, no None inside a tuple or list, no Nones that are not optional fields), reading back to_xml_tree(value) gives pydantic exactly the encoded field data, so the result equals value whenever pydantic validation inverts its own encoding; this holds in all three search modes, for nested models of any depth, and with empty_as_string, where empty strings are recovered too (then a wrapped text must be alone in its wrapper).", "quantifier": "every model meeting the condition, every value, all search modes, both back ends, both empty_as_string settings", "why_tests_cant": "all models x all values", "anchors": ["pydantic_xml/model.py::BaseXmlModel.to_xml_tree", "pydantic_xml/model.py::BaseXmlModel.from_xml_tree"]}
{"id": "C21", "title": "what does not round trip", "statement": "Empty strings, empty lists, None list items and None tuple items are not recovered: the list is cut at the first empty or nil item, tuples shift when exclude_none drops an item. With empty_as_string, an empty element comes back as the empty string, and so does a None that was written as one; only xsi:nil items cut a list.", "quantifier": "every list and tuple of texts in a one-field class; witnesses for the rest", "why_tests_cant": "shows the limits of C20 are real", "anchors": ["pydantic_xml/serializers/factories/homogeneous.py::ElementSerializer.deserialize", "pydantic_xml/serializers/factories/heterogeneous.py::ElementSerializer.serialize"]}
{"id": "C22", "title": "skip_empty leaves no empty element", "statement": "With skip_empty=True (and no model overriding it) no element of the output except the root and wrapper elements is empty (no text, attributes, children); wrappers can be left empty.", "quantifier": "every model without raw fields and custom serializers, every value", "why_tests_cant": "every value shape", "anchors": ["pydantic_xml/serializers/factories/model.py::ModelProxySerializer.serialize", "pydantic_xml/serializers/factories/primitive.py::ElementSerializer.serialize", "pydantic_xml/serializers/factories/wrapper.py::ElementPathSerializer.serialize"]}
{"id": "C23", "title": "exclude_none writes nothing for None", "statement": "With exclude_none=True a field whose value is None leaves the output element exactly as it was, for every kind of field except a mapping bound to its own element and a discriminated union.", "quantifier": "every serializer and element state", "why_tests_cant": "every field kind and state", "anchors": ["pydantic_xml/serializers/factories/primitive.py", "pydantic_xml/serializers/factories/model.py::ModelProxySerializer.serialize", "pydantic_xml/serializers/factories/mapping.py::ElementSerializer.serialize"]}
{"id": "C24", "title": "exclude_unset writes only set fields", "statement": "With exclude_unset=True the output does not depend on fields that were not explicitly set, and equals the output of the same model restricted to the set fields.", "quantifier": "every model and value", "why_tests_cant": "every subset of fields", "anchors": ["pydantic_xml/serializers/factories/model.py::ModelSerializer.serialize"]}
{"id": "C25", "title": "computed fields are written, never read", "statement": "Reading a computed field takes nothing from the document and yields no value; removing computed fields from a model does not change what from_xml accepts or returns.", "quantifier": "every model and document", "why_tests_cant": "every document", "anchors": ["pydantic_xml/serializers/factories/primitive.py::TextSerializer.deserialize", "pydantic_xml/serializers/factories/model.py::ModelSerializer.deserialize"]}
{"id": "C26", "title": "output order is declaration order", "statement": "Children written for a model appear in field declaration order, items of collections in collection order; writing a field appends after everything already written and never reorders or removes earlier children (wrappers may extend the last child).", "quantifier": "every model and value", "why_tests_cant": "every value", "anchors": ["pydantic_xml/serializers/factories/model.py::ModelSerializer.serialize", "pydantic_xml/element/element.py::XmlElement.append_element"]}
{"id": "C27", "title": "a wrapped path is created once for adjacent fields", "statement": "Writing a wrapped field descends into the last written child if it has the wrapper's tag and otherwise appends a new one; so consecutive fields with the same path share one wrapper, and the wrapper is never merged with an element written before another one.", "quantifier": "every element built by to_xml, every path", "why_tests_cant": "needs the invariant that the write position is at the end", "anchors": ["pydantic_xml/element/element.py::XmlElement.find_element_or_create", "pydantic_xml/serializers/factories/wrapper.py::ElementPathSerializer.serialize"]}
{"id": "C28", "title": "a wrapped field reads through its path", "statement": "A wrapped field is read from the element reached by following its path segment by segment with the model's search mode (reusing the element found by the preceding field); if any segment is missing the field is absent.", "quantifier": "every path and document", "why_tests_cant": "paths of any length", "anchors": ["pydantic_xml/element/element.py::XmlElement.find_sub_element", "pydantic_xml/serializers/factories/wrapper.py::ElementPathSerializer.deserialize"]}
{"id": "C29", "title": "list items are read up to the first missing one", "statement": "A collection field returns the values of its items in the order of the unread children, reading items until one is absent or empty; items after an empty one are not part of the result. The order is the document's, except that in unordered mode a field read earlier may have moved items.", "quantifier": "every document", "why_tests_cant": "any number of items", "anchors": ["pydantic_xml/serializers/factories/homogeneous.py::ElementSerializer.deserialize"]}
{"id": "C30", "title": "all item errors are reported with their index", "statement": "If some items of a collection or tuple, or several fields of a model, are invalid, the ValidationError contains the errors of all of them, each prefixed by its index or field name, in order, and nothing else.", "quantifier": "every set of failing fields or items", "why_tests_cant": "every combination of failures", "anchors": ["pydantic_xml/utils.py::into_validation_error", "pydantic_xml/serializers/factories/homogeneous.py", "pydantic_xml/serializers/factories/heterogeneous.py", "pydantic_xml/serializers/factories/model.py::ModelSerializer.deserialize"]}
{"id": "C31", "title": "tuple length is checked on output", "statement": "Writing a heterogeneous tuple raises SerializationError iff its length differs from the declared one (None and, with skip_empty, the empty tuple excepted); a tuple field is read as nothing or as a value with exactly the declared number of items, so what was read can be written.", "quantifier": "every value", "why_tests_cant": "every length", "anchors": ["pydantic_xml/serializers/factories/heterogeneous.py::ElementSerializer.serialize"]}
{"id": "C32", "title": "union of models takes the first variant that fits and rolls back the others", "statement": "A union field of model types yields the value of the first variant that reads successfully; the document state afterwards is exactly the one that variant alone would have produced, failed attempts leave no trace; if none fits and some failed, one ValidationError carries the errors of the failing variants.", "quantifier": "every list of variants, every document", "why_tests_cant": "all failure combinations", "anchors": ["pydantic_xml/serializers/factories/union.py::ModelSerializer.deserialize", "pydantic_xml/element/element.py::XmlElement.create_snapshot"]}
{"id": "C33", "title": "snapshots are isolated", "statement": "Nothing done to a snapshot of an element (at any depth) is visible in the element until the snapshot is applied, and applying it makes the element indistinguishable from the snapshot.", "quantifier": "every sequence of mutations through any reference into the snapshot", "why_tests_cant": "aliasing: needs all mutation sequences over shared references", "anchors": ["pydantic_xml/element/element.py::XmlElement.create_snapshot", "pydantic_xml/element/element.py::XmlElement.apply_snapshot"]}
{"id": "C34", "title": "discriminated unions dispatch on the attribute", "statement": "A discriminated union reads the variant whose discriminator value equals the attribute of the next matching element, without consuming anything if there is none; on output the variant is selected by the encoded discriminator.", "quantifier": "every document and variant set", "why_tests_cant": "all documents", "anchors": ["pydantic_xml/serializers/factories/tagged_union.py::ModelSerializer"]}
{"id": "C35", "title": "nillable elements", "statement": "A nillable element written for None carries xsi:nil='true' and reads back as None; reading an element with xsi:nil='true' yields None for nillable primitives and for every sub-model.", "quantifier": "every element and value", "why_tests_cant": "every element state", "anchors": ["pydantic_xml/element/utils.py::is_element_nill", "pydantic_xml/element/utils.py::make_element_nill", "pydantic_xml/serializers/factories/primitive.py::TextSerializer", "pydantic_xml/serializers/factories/model.py::ModelProxySerializer"]}
{"id": "C36", "title": "a mapping field owns all attributes", "statement": "A mapping of local attributes written after attribute fields discards them; when it is the only user of the attributes, the mapping round-trips as string pairs.", "quantifier": "every mapping", "why_tests_cant": "all mappings", "anchors": ["pydantic_xml/serializers/factories/mapping.py::AttributesSerializer", "pydantic_xml/element/element.py::XmlElement.set_attributes"]}
{"id": "C37", "title": "comments do not matter", "statement": "Inserting or removing comments (with blank tails) anywhere in a document does not change the result of from_xml_tree.", "quantifier": "every document, every placement of comments", "why_tests_cant": "all placements", "anchors": ["pydantic_xml/element/native/lxml.py::XmlElement.from_native", "pydantic_xml/element/native/std.py::XmlElement.from_native"]}
{"id": "C38", "title": "attribute order does not matter", "statement": "Permuting the attributes of any element does not change the model produced, up to the key order of mapping fields.", "quantifier": "every document and permutation", "why_tests_cant": "all permutations", "anchors": ["pydantic_xml/element/element.py::XmlElement.pop_attrib"]}
{"id": "C39", "title": "unknown elements do not matter in ordered and unordered mode", "statement": "Unless extra='forbid' is set or user validators look at the element, two documents that differ only in elements with tags no field asks for (at any place outside raw elements, any number of them) and in comments give the same value, or both a ValidationError, in ordered search mode; and in unordered mode when no two siblings share a tag. In strict mode they may differ, and in unordered mode with repeated siblings an unknown element can change which of them is read.", "quantifier": "every document, any number of insertions", "why_tests_cant": "all insertions", "anchors": ["pydantic_xml/element/element.py::ordered_search", "pydantic_xml/element/element.py::unordered_search"]}
{"id": "C40", "title": "root tag check", "statement": "from_xml_tree raises ParsingError iff the root tag differs from the qualified tag of the model, and then does not read the document.", "quantifier": "every model and root element", "why_tests_cant": "all tags", "anchors": ["pydantic_xml/model.py::BaseXmlModel.from_xml_tree"]}
{"id": "C41", "title": "error line numbers", "statement": "A validation error on a field is reported with the line of the nearest enclosing element recorded for its location; if no line is recorded for it or for any prefix the line is -1.", "quantifier": "every error location and source map", "why_tests_cant": "all locations and maps", "anchors": ["pydantic_xml/utils.py::set_validation_error_sourceline"]}
{"id": "C42", "title": "recorded lines belong to the right element", "statement": "The line reported for an error at a field of a model is the line of the element the model was read from or of one of its descendants; for a field bound to one element it is the line of that very element (of the model's element if it is absent), for an item of a list or a component of a tuple the line of its own element, for a wrapped field the line of its element (of the innermost wrapper if it is absent, of the model's element if the path is), unless a model read by that field or a later one declares a field of the same name: then the nested field's line is reported, and for errors inside a field's value the line may even lie outside the model's element.", "quantifier": "every document and model", "why_tests_cant": "depends on all nested reads before the failure", "anchors": ["pydantic_xml/serializers/factories/model.py::ModelSerializer.deserialize", "pydantic_xml/utils.py::set_validation_error_sourceline"]}
{"id": "C43", "title": "custom field serializers and validators replace the default", "statement": "If a model defines an xml field serializer (validator) for a field it is called exactly for that field with the element being written (read), and the field's own serializer is not used.", "quantifier": "every model and value", "why_tests_cant": "every field", "anchors": ["pydantic_xml/serializers/factories/model.py::ModelSerializer", "pydantic_xml/model.py::XmlModelMeta._collect_xml_field_serializers_validators"]}
{"id": "C44", "title": "the native conversion keeps the document", "statement": "Converting a native tree to the internal one and back gives the same tree without comments; converting internal to native and back gives the same element (read position, lines and nsmap aside).", "quantifier": "every tree", "why_tests_cant": "trees of any shape", "anchors": ["pydantic_xml/element/native/lxml.py::XmlElement.from_native", "pydantic_xml/element/native/lxml.py::XmlElement.to_native", "pydantic_xml/element/native/std.py::XmlElement"]}
{"id": "C45", "title": "both back ends write the same tree", "statement": "to_xml_tree gives the same tags, text, attributes and children on lxml and on the standard library; only namespace prefix declarations differ.", "quantifier": "every model and value", "why_tests_cant": "every value", "anchors": ["pydantic_xml/element/native/lxml.py", "pydantic_xml/element/native/std.py"]}
{"id": "C46", "title": "model building rejects what cannot be represented", "statement": "Defining a class ends and either fails with ModelError, ModelFieldError or TypeError or yields serializers in which every attribute, element, wrapper and sub-model has a name, attributes never use the default namespace, attribute entities are primitive or unions of primitives, and collections never hold the text or attributes of their own element; classes so defined read every document with documented errors only.", "quantifier": "every schema and field context", "why_tests_cant": "all nested schemas", "anchors": ["pydantic_xml/serializers/serializer.py::Serializer.select_serializer", "pydantic_xml/serializers/factories/primitive.py::AttributeSerializer.from_core_schema"]}
{"id": "C47", "title": "reserved prefixes are not registered", "statement": "Prefix registration skips exactly the default prefix and the prefixes of the form ns<digits>; every other declared prefix is registered with its URI.", "quantifier": "every namespace map", "why_tests_cant": "all strings", "anchors": ["pydantic_xml/utils.py::register_nsmap"]}
{"id": "C48", "title": "environment switches", "statement": "REGISTER_NS_PREFIXES / FORCE_STD_XML accept exactly y, yes, t, true, on, 1 and n, no, f, false, off, 0 in any letter case; anything else raises ValueError.", "quantifier": "every string", "why_tests_cant": "all strings", "anchors": ["pydantic_xml/config.py::strtobool"]}
{"id": "C49", "title": "both back ends read a document alike", "statement": "from_xml_tree gives the same model, or the same error up to line numbers, on lxml and on the standard library, for every document without processing instructions.", "quantifier": "every document and model", "why_tests_cant": "every document", "anchors": ["pydantic_xml/element/native/lxml.py::XmlElement.from_native", "pydantic_xml/element/native/std.py::XmlElement.from_native"]}
{"id": "C50", "title": "several base classes", "statement": "The tag, namespace, namespace map, ns_attrs, skip_empty and search mode of a class come from its own class statement and from the lineage of the first of its bases that is an XML model; no other base has any influence, and plain or pydantic base classes in front do not matter.", "quantifier": "every module: every sequence of class statements with any bases and arguments", "why_tests_cant": "all inheritance graphs", "anchors": ["pydantic_xml/model.py::BaseXmlModel.__init_subclass__"]}
{"id": "C51", "title": "which custom field function is used", "statement": "For every field the function of the method decorated for it is used, else the last serializer (validator) in the field's annotation, else none; a method redefined in a subclass replaces the inherited one; the order in which Python visits the attributes does not matter unless two methods name the same field.", "quantifier": "every class, annotation and iteration order", "why_tests_cant": "the iteration order of a set of strings changes from run to run", "anchors": ["pydantic_xml/model.py::XmlModelMeta._collect_xml_field_serializers_validators", "pydantic_xml/fields.py::xml_field_serializer", "pydantic_xml/fields.py::xml_field_validator"]}
{"id": "C52", "title": "when a class can be used", "statement": "A class can be used with XML exactly if it was complete with its type parameters given when it was created or at some later model_rebuild at which the serializer could be built; the serializer is the one built at the first such moment and no later rebuild, failing or not, loses or changes it; a class without one fails with the assertion.", "quantifier": "every history of class creation and rebuilds", "why_tests_cant": "histories of any length", "anchors": ["pydantic_xml/model.py::BaseXmlModel.__build_serializer__", "pydantic_xml/model.py::BaseXmlModel.model_rebuild", "pydantic_xml/model.py::XmlModelMeta.__new__"]}
{"id": "C53", "title": "alias arguments", "statement": "A field declared with attr() or element() is named in XML by serialization_alias, or else by alias, and is validated under validation_alias, or else alias; around such a declaration wrapped() does not change them.", "quantifier": "every combination of alias arguments", "why_tests_cant": "all combinations and strings", "anchors": ["pydantic_xml/fields.py::prepare_field_kwargs", "pydantic_xml/fields.py::attr", "pydantic_xml/fields.py::element", "pydantic_xml/fields.py::wrapped"]}
{"id": "C54", "title": "pydantic version test", "statement": "Version strings M.N.P with any suffix and M.N with a suffix that does not start with a dot or digit are read as the numbers they denote and compared lexicographically with 2.12.0.", "quantifier": "every version string of that form", "why_tests_cant": "all numbers and suffixes", "anchors": ["pydantic_xml/compat.py::parse_version", "pydantic_xml/compat.py::merge_field_infos"]}
{"id": "C55", "title": "NoXml fields", "statement": "A field annotated NoXml is treated as if it were not declared: the class behaves as the class without it, its value has no influence on the XML written, and reading never supplies a value for it.", "quantifier": "every class, value and document", "why_tests_cant": "all classes and values", "anchors": ["pydantic_xml/fields.py::NoXml", "pydantic_xml/serializers/factories/model.py::ModelSerializer.from_core_schema"]}
{"id": "C56", "title": "create_model is a class statement", "statement": "create_model gives the class the same XML parameters as the class statement with the same bases and arguments, with or without a model config.", "quantifier": "every module, base list and argument list", "why_tests_cant": "all inheritance graphs", "anchors": ["pydantic_xml/model.py::create_model"]}
{"id": "C57", "title": "computed field decorators", "statement": "A decorator made by computed_attr or computed_element describes the property it is applied to by the arguments it was made with.", "quantifier": "every argument list and number of applications", "why_tests_cant": "any number of applications", "anchors": ["pydantic_xml/fields.py::computed_entity", "pydantic_xml/fields.py::computed_attr", "pydantic_xml/fields.py::computed_element"]}
{"id": "C58", "title": "documents as text", "statement": "If the XML library's parser reads back what its printer wrote, up to empty texts, then from_xml(to_xml(v)) gives the value of C20 up to empty texts of raw elements, and exactly v when C20 gives v and v has no raw elements; reading never tells an empty text from a missing one, and to_xml fails only where to_xml_tree or the printer does. Indented output (pretty_print) is outside: it changes what fields bound to the text of an element with children read.", "quantifier": "every class, value and faithful printer and parser", "why_tests_cant": "every value; the library is abstract", "anchors": ["pydantic_xml/model.py::BaseXmlModel.from_xml", "pydantic_xml/model.py::BaseXmlModel.to_xml"]}
{"id": "C59", "title": "namespace prefix declarations", "statement": "In the tree given by to_xml_tree with lxml the root declares exactly the prefixes of its class and every other element exactly those of the field it was written for, the empty prefix as the default namespace; with the standard library no element declares any. Raw elements lose their declarations.", "quantifier": "every class and value", "why_tests_cant": "every element of every document", "anchors": ["pydantic_xml/element/native/lxml.py::XmlElement.to_native", "pydantic_xml/element/native/std.py::XmlElement.to_native", "pydantic_xml/serializers/factories/model.py::ModelSerializer.serialize"]}
{"id": "C60", "title": "settings act in one direction", "statement": "What a document is read as does not depend on nsmap prefixes, excluded fields, skip_empty or custom serializers; what an instance is written as does not depend on search modes, extra, validation aliases, custom validators or on fields being computed.", "quantifier": "every pair of class families that differ in those settings, every document and value", "why_tests_cant": "every document and value", "anchors": ["pydantic_xml/serializers/factories/model.py::ModelSerializer.serialize", "pydantic_xml/serializers/factories/model.py::ModelSerializer.deserialize"]}
{"id": "C61", "title": "excluded fields", "statement": "A class excludes exactly the XML fields declared with exclude=True; an instance is written as if they were not declared, whatever their values; they are read like other fields.", "quantifier": "every class, value and document", "why_tests_cant": "every value and document", "anchors": ["pydantic_xml/serializers/factories/model.py::ModelSerializer.serialize", "pydantic_xml/serializers/factories/model.py::ModelSerializer.from_core_schema"]}
{"id": "C62", "title": "what a declaration means", "statement": "The type of a field and its annotation decide how it is bound: a scalar is text, an attribute or an element; a list, set or variadic tuple repeats the binding of its item; a fixed-length or named tuple strings the bindings of its items together; a dict or typed dict of scalars is the attributes of an element; a model is an element of that class; a union of scalars is one string, a union of models a choice of elements, a discriminated union a choice by attribute; wrapped() is what it wraps below a path. Exactly the classes all of whose fields have such a binding can be defined, and the binding is unique.", "quantifier": "every class, field type and annotation (core schemas with their definitions at the top)", "why_tests_cant": "all nestings of types and annotations", "anchors": ["pydantic_xml/serializers/serializer.py::Serializer.parse_core_schema", "pydantic_xml/serializers/serializer.py::Serializer.select_serializer", "pydantic_xml/serializers/factories/homogeneous.py::from_core_schema", "pydantic_xml/serializers/factories/heterogeneous.py::from_core_schema", "pydantic_xml/serializers/factories/union.py::from_core_schema", "pydantic_xml/serializers/factories/tagged_union.py::from_core_schema", "pydantic_xml/serializers/factories/mapping.py::from_core_schema"]}
{"id": "C63", "title": "how scalar values are written", "statement": "A scalar field is written as: nothing between the tags (or an empty attribute) for None, 'true' or 'false' for a boolean, the decimal notation without leading zeros for an integer, a string as it is, anything else as its str(); so different integers are never written alike. Entries of a mapping over attributes are written in Python's notation instead ('True', 'None'). Each field changes its own attribute, text or element only.", "quantifier": "every scalar value, field and element", "why_tests_cant": "infinitely many numbers and strings", "anchors": ["pydantic_xml/serializers/serializer.py::encode_primitive", "pydantic_xml/serializers/factories/primitive.py::AttributeSerializer.serialize", "pydantic_xml/serializers/factories/primitive.py::ElementSerializer.serialize", "pydantic_xml/serializers/factories/primitive.py::TextSerializer.serialize", "pydantic_xml/serializers/factories/mapping.py::AttributesSerializer.serialize"]}
{"id": "C64", "title": "calls leave no trace", "statement": "from_xml_tree and to_xml_tree change no element, attribute dict, child list or namespace map that existed before the call, in particular no namespace map of a class although new elements share them, whether or not the call fails; in any sequence of calls every call gives what it gives on its own.", "quantifier": "every class, document, value, heap and sequence of calls; custom field functions that act on the element they are given only", "why_tests_cant": "every heap and every history of calls", "anchors": ["pydantic_xml/model.py::BaseXmlModel.from_xml_tree", "pydantic_xml/model.py::BaseXmlModel.to_xml_tree", "pydantic_xml/element/element.py::XmlElement", "pydantic_xml/element/native/lxml.py::XmlElement.from_native", "pydantic_xml/element/native/std.py::XmlElement.from_native"]}
{"id": "C65", "title": "search modes agree on what strict mode accepts", "statement": "Take classes that forbid extra data, without validators of their own, whose fields ask for elements in turn (an element name is asked for by one field, by the fields next to each other, or by one list), and a document in which every element has content. If the document is accepted with every field searched for strictly, it is accepted with the same value whatever the search modes of the fields are. This fails for classes that ignore extra data, for fields that do not ask in turn, for lists whose items have several element names, and for empty elements.", "quantifier": "every family of such classes, every choice of modes field by field, every document", "why_tests_cant": "every nesting of classes, every assignment of modes and every document", "anchors": ["pydantic_xml/element/element.py::strict_search", "pydantic_xml/element/element.py::ordered_search", "pydantic_xml/element/element.py::unordered_search", "pydantic_xml/element/element.py::XmlElement.find_sub_element", "pydantic_xml/serializers/factories/model.py::ModelSerializer.deserialize"]}
{"id": "C66", "title": "element order is irrelevant in unordered mode", "statement": "If all fields are searched for in unordered mode, two documents that differ only in the order of sibling elements (at any depth, raw elements excepted) and in comments give the same value, or both a ValidationError, provided no two siblings share a name. With repeated names the items of a list may come out in another order.", "quantifier": "every family of classes in unordered mode, every document and every reordering", "why_tests_cant": "all permutations at all depths", "anchors": ["pydantic_xml/element/element.py::unordered_search", "pydantic_xml/serializers/factories/model.py::ModelSerializer.deserialize"]}
{"id": "C67", "title": "new fields do not disturb old documents", "statement": "Fields may be added to classes (attributes, elements, lists, tuples, unions, sub-models, raw and wrapped fields, anywhere among the old fields): a document in which none of the new element and attribute names occurs gives the same value as before up to the attributes for the new fields, or fails with the same kind of exception as before, in every search mode. This fails for a new wrapped field whose path starts with an element the document has, which the old fields may then miss.", "quantifier": "every family of classes and extension of it by new fields at any depth, every document without the new names, every search mode", "why_tests_cant": "every class, every set of new fields and every document", "anchors": ["pydantic_xml/serializers/factories/model.py::ModelSerializer.deserialize", "pydantic_xml/element/element.py::XmlElement.find_sub_element", "pydantic_xml/element/element.py::XmlElement.pop_element", "pydantic_xml/serializers/factories/wrapper.py::ElementPathSerializer.deserialize"]}
{"id": "C68", "title": "values come from the document, sub-models from their own element", "statement": "Whatever from_xml_tree hands to pydantic for an instance was taken from the document: a string is the text or the attribute of the element the field is bound to, a mapping holds attributes of that element, a raw element is a copy of a child with the field's name, and a sub-model (on its own, in a list, tuple or union, or below a wrapper) is exactly the value that from_xml_tree of its class, declared with the field's element name, returns for that element alone without its xsi:nil attribute, whatever was read before it and whatever variants were tried first. Custom field validators are assumed only to read.", "quantifier": "every family of classes, every document, every search mode and depth", "why_tests_cant": "every class graph, every document and every order of reading", "anchors": ["pydantic_xml/serializers/factories/model.py::ModelProxySerializer.deserialize", "pydantic_xml/serializers/factories/union.py::ModelSerializer.deserialize", "pydantic_xml/element/element.py::XmlElement.pop_element", "pydantic_xml/element/element.py::XmlElement.apply_snapshot", "pydantic_xml/model.py::BaseXmlModel.from_xml_tree"]}
{"id": "C69", "title": "what the type checker plugin says", "statement": "The mypy plugin judges a field declared by attr(), element() or wrapped() under the names it knows them by from its keyword arguments: it has a default exactly if default= is given other than ... or default_factory= other than None; its alias is the one given as a literal and dynamic if given otherwise; it is strict or not as written by literal, unknown otherwise; frozen exactly if frozen=True; where a keyword is missing, pydantic's plugin decides, as it does for every other statement except that those are never frozen. But the names are wrong (the functions live in pydantic_xml.fields), so no declaration is recognised and required fields count as optional; a default of a wrapped entity, a factory after default=... and pydantic's Field(frozen=True) are missed.", "quantifier": "every right-hand side of a field declaration and every answer of pydantic's own plugin", "why_tests_cant": "every combination of arguments in every order", "anchors": ["pydantic_xml/mypy.py::PydanticXmlModelTransformer.get_has_default", "pydantic_xml/mypy.py::PydanticXmlModelTransformer.get_alias_info", "pydantic_xml/mypy.py::PydanticXmlModelTransformer.get_strict", "pydantic_xml/mypy.py::PydanticXmlModelTransformer.is_field_frozen", "pydantic_xml/mypy.py::PydanticXmlPlugin.get_metaclass_hook"]}
{"id": "C70", "title": "the document is put together piece by piece", "statement": "The tree to_xml_tree returns is determined field by field: the root element is named after the class, and into it go, in the order the fields are declared, the pieces of each field that is neither excluded nor (with exclude_unset) unset: the text, an attribute, the attributes of a mapping, a new child element, or, for a wrapped field, pieces put into the last child with the wrapper's name (made if there is none); a list gives the pieces of its items in order, a union those of the variant of the instance's class, None nothing or (nillable) an empty element with xsi:nil. The element of a sub-model is the tree of that sub-model alone, named by the field. to_xml_tree succeeds exactly if all pieces exist. A raw element followed by a wrapper of the same name is outside: the wrapped value is put into it.", "quantifier": "every family of classes without custom serializers, every instance, all flags, both libraries", "why_tests_cant": "every class graph and every value of any depth", "anchors": ["pydantic_xml/serializers/factories/model.py::ModelSerializer.serialize", "pydantic_xml/serializers/factories/model.py::ModelProxySerializer.serialize", "pydantic_xml/serializers/factories/homogeneous.py::ElementSerializer.serialize", "pydantic_xml/serializers/factories/heterogeneous.py::ElementSerializer.serialize", "pydantic_xml/serializers/factories/wrapper.py::ElementPathSerializer.serialize", "pydantic_xml/serializers/factories/raw.py::ElementSerializer.serialize", "pydantic_xml/model.py::BaseXmlModel.to_xml_tree"]}
{"id": "C71", "title": "the validation context reaches every validation", "statement": "The context given to from_xml or from_xml_tree is the one in which every instance is validated, at every depth: in lists, tuples, unions (every variant tried), below wrappers and in root models. What the validators of the classes would do in any other context, or without one, does not matter to the outcome.", "quantifier": "every family of classes with context-dependent validators, every document and context", "why_tests_cant": "every nesting and every path through the readers", "anchors": ["pydantic_xml/model.py::BaseXmlModel.from_xml", "pydantic_xml/model.py::BaseXmlModel.from_xml_tree", "pydantic_xml/serializers/factories/model.py::ModelSerializer.deserialize", "pydantic_xml/serializers/factories/model.py::ModelProxySerializer.deserialize", "pydantic_xml/serializers/factories/union.py::ModelSerializer.deserialize", "pydantic_xml/serializers/factories/wrapper.py::ElementPathSerializer.deserialize"]}
{"id": "C72", "title": "decorated methods are called as declared", "statement": "A method decorated with xml_field_validator (xml_field_serializer) is called for exactly the fields named by the topmost such decorator, with the class, the element and the field name (the instance, the element, the value and the field name), whatever other decorators, classmethod and staticmethod included, are piled on it. Exceptions: xml_field_serializer above a classmethod or staticmethod has no effect, and a classmethod above the decorator passes the class once more.", "quantifier": "every class, every set of methods, every pile of decorators", "why_tests_cant": "any number of decorators in any order on any number of methods", "anchors": ["pydantic_xml/fields.py::xml_field_validator", "pydantic_xml/fields.py::xml_field_serializer", "pydantic_xml/model.py::XmlModelMeta._collect_xml_field_serializers_validators", "pydantic_xml/serializers/factories/model.py::ModelSerializer.serialize", "pydantic_xml/serializers/factories/model.py::ModelSerializer.deserialize"]}
{"id": "C73", "title": "text that no field is bound to does not matter", "statement": "Two documents that differ only in the text of elements whose text no field reads, in text behind elements, in comments, prefix declarations and line numbers (raw elements and their tails excepted) give the same value or the same error up to line numbers; if classes forbid extra data, the texts must agree up to surrounding whitespace. So indenting a document changes nothing, and a value that survives writing and reading survives a pretty printer, as long as no element with children is read for its text and there are no raw elements.", "quantifier": "every family of classes, every document, every such change at any depth, every search mode and indentation", "why_tests_cant": "every class graph, every document and every placement of text", "anchors": ["pydantic_xml/element/element.py::XmlElement.pop_text", "pydantic_xml/element/element.py::XmlElement.get_unbound", "pydantic_xml/element/native/lxml.py::XmlElement.from_native", "pydantic_xml/serializers/factories/primitive.py::TextSerializer.deserialize", "pydantic_xml/serializers/factories/primitive.py::ElementSerializer.deserialize", "pydantic_xml/serializers/factories/model.py::ModelSerializer.deserialize"]}
{"id": "C74", "title": "calls may run at the same time", "statement": "Threads may call from_xml_tree and to_xml_tree (any number of calls each, on classes that are complete) at the same time. However the threads are interleaved, access by access, and even if some of them never get another turn, every call gives the value, tree or exception it gives alone, no call takes more steps than alone, and nothing that was in memory before (in particular the namespace maps the classes and the elements share) is changed. Custom field functions are assumed to work on the element they are given and not on data shared with other threads.", "quantifier": "every number of threads and calls, every schedule, every interruption point, every memory", "why_tests_cant": "the number of interleavings grows exponentially; a race shows only under one of them", "anchors": ["pydantic_xml/element/element.py::XmlElement", "pydantic_xml/element/element.py::XmlElement.create_snapshot", "pydantic_xml/element/element.py::XmlElement.apply_snapshot", "pydantic_xml/model.py::BaseXmlModel.from_xml_tree", "pydantic_xml/model.py::BaseXmlModel.to_xml_tree", "pydantic_xml/serializers/factories/model.py::ModelSerializer.serialize", "pydantic_xml/serializers/factories/model.py::ModelSerializer.deserialize"]}
{"id": "C75", "title": "the choice of prefixes does not matter", "statement": "Namespace prefixes are only names: if every prefix in the class parameters and field annotations of a program is replaced by another (no two by the same, the empty prefix by itself), the same classes are accepted, the others are rejected with the same exception, all element and attribute names are the same, from_xml returns the same value or error, and to_xml writes the same document up to the prefixes its elements declare. Renaming the empty prefix, or two prefixes to one, can change names or accept a class that was rejected.", "quantifier": "every program, every injective renaming of prefixes that keeps the empty one, every document, every instance", "why_tests_cant": "every class graph, every nesting and every renaming", "anchors": ["pydantic_xml/utils.py::QName.from_alias", "pydantic_xml/utils.py::merge_nsmaps", "pydantic_xml/utils.py::select_ns", "pydantic_xml/serializers/serializer.py::Serializer.Context.parent_nsmap", "pydantic_xml/model.py::BaseXmlModel.__init_subclass__", "pydantic_xml/serializers/factories/model.py::ModelProxySerializer.from_core_schema", "pydantic_xml/serializers/factories/mapping.py::AttributesSerializer.serialize", "pydantic_xml/element/native/lxml.py::XmlElement.to_native"]}
{"id": "C76", "title": "what was read can be written and read again", "statement": "Take any document a class accepts, with whatever comments, order, unbound elements and attributes it has, and write the instance: reading what was written gives that very instance, including which fields have been set, so the written document is a normal form. This holds for classes that keep their fields apart and whose pydantic types accept their own output as text again, if missing fields are left out (exclude_unset, or exclude_none when every default is None and no field is a mapping over an element or a discriminated union), for every depth, search mode and library, also through text. It fails without these flags, with skip_empty, for a nillable text with a default read with empty strings as text, for types that turn a text into an empty one and for tuples with a missing member.", "quantifier": "every family of steady classes, every accepted document, every depth and search mode", "why_tests_cant": "every class graph and every document, not only those the library wrote", "anchors": ["pydantic_xml/model.py::BaseXmlModel.from_xml_tree", "pydantic_xml/model.py::BaseXmlModel.to_xml_tree", "pydantic_xml/serializers/factories/model.py::ModelSerializer.serialize", "pydantic_xml/serializers/factories/model.py::ModelSerializer.deserialize", "pydantic_xml/serializers/factories/primitive.py::ElementSerializer.serialize", "pydantic_xml/serializers/factories/union.py::ModelSerializer.deserialize"]}
{"id": "C77", "title": "exceptions of user code reach the caller", "statement": "If user code called while reading (field validators, and the validators and default factories pydantic calls) or writing (field serializers) raises an exception other than ValidationError, from_xml or to_xml raises that very exception: it is not swallowed, not replaced, not collected into a ValidationError and not taken for a union variant that does not fit; user code that would raise but is not reached has no effect. Only a ValidationError raised while reading is handled (collected, or the next variant tried).", "quantifier": "every family of classes, every document, instance and depth, and every set of cases in which user code raises", "why_tests_cant": "every place user code can be called from and every combination of failures", "anchors": ["pydantic_xml/serializers/factories/model.py::ModelSerializer.deserialize", "pydantic_xml/serializers/factories/model.py::RootModelSerializer.deserialize", "pydantic_xml/serializers/factories/union.py::ModelSerializer.deserialize", "pydantic_xml/serializers/factories/homogeneous.py::ElementSerializer.deserialize", "pydantic_xml/serializers/factories/heterogeneous.py::ElementSerializer.deserialize", "pydantic_xml/serializers/factories/model.py::ModelSerializer.serialize"]}
{"id": "C78", "title": "how much user code a document can make run", "statement": "Reading validates, without unions of models, at most as many models as the document has elements, and runs the validator of any field at most as often, in every search mode and for every document, valid or not; a returned model is what the last validation made returned. With unions of at most k models the number is at most ((k+1) times the greatest number of children)^(levels of nesting). The exponent is needed: there are two classes for which a chain of d+1 nested elements, which is accepted, takes 2^(d+1)-1 validations. The calls counted are the ones made: other user code that answers them alike gives the same result, and if one of them raises, so does from_xml.", "quantifier": "every family of classes, every document, every depth, every search mode, every failure on the way", "why_tests_cant": "every class graph and every document; the worst case needs a crafted document", "anchors": ["pydantic_xml/serializers/factories/model.py::ModelSerializer.deserialize", "pydantic_xml/serializers/factories/model.py::ModelProxySerializer.deserialize", "pydantic_xml/serializers/factories/union.py::ModelSerializer.deserialize", "pydantic_xml/serializers/factories/tagged_union.py::ModelSerializer.deserialize", "pydantic_xml/serializers/factories/homogeneous.py::ElementSerializer.deserialize", "pydantic_xml/serializers/factories/wrapper.py::ElementPathSerializer.deserialize", "pydantic_xml/element/element.py::XmlElement.create_snapshot"]}
{"id": "C79", "title": "the switches only leave things out", "statement": "With more switches (skip_empty, exclude_none, exclude_unset) to_xml writes the document it writes with fewer of them, with some texts, attributes and elements left out; what is left has the same place, name, value and order, and what can be written without a switch can be written with it. This holds for classes without field serializers of their own whose fields do not overwrite each other and whose fields below the same wrapper stand next to each other. It fails for a mapping declared after attribute fields (it wipes their attributes unless it is left out), for two fields below the same wrapper with another field between them (the wrappers merge when that field is left out), and an Optional mapping bound to an element that is None makes skip_empty raise a TypeError.", "quantifier": "every family of such classes, every instance, every two settings of the switches, both libraries", "why_tests_cant": "every class graph, every value and every combination of switches", "anchors": ["pydantic_xml/serializers/factories/model.py::ModelSerializer.serialize", "pydantic_xml/serializers/factories/model.py::ModelProxySerializer.serialize", "pydantic_xml/serializers/factories/primitive.py::TextSerializer.serialize", "pydantic_xml/serializers/factories/primitive.py::ElementSerializer.serialize", "pydantic_xml/serializers/factories/mapping.py::ElementSerializer.serialize", "pydantic_xml/serializers/factories/wrapper.py::ElementPathSerializer.serialize", "pydantic_xml/element/element.py::XmlElement.is_empty", "pydantic_xml/element/element.py::XmlElement.find_element_or_create"]}
{"id": "C80", "title": "field serializers run once per instance, with its value", "statement": "to_xml calls a field serializer only for instances that are in the value, with the instance at that place and the value of the field, never twice for the same field of the same place, and never for an excluded field or, with exclude_unset, for one that has not been set. Once an instance has been written, the serializers of its own fields have been called in declaration order, each that applies and no other; the number of calls is at most the number of instances times the greatest number of serializers of a class. The calls counted are the ones made: other user code that answers them alike gives the same document, and if one of them raises, so does to_xml. A serializer for the root of a root model is never called.", "quantifier": "every family of classes, every instance at every depth, every setting of the switches", "why_tests_cant": "every class graph and every value; a serializer with effects outside the element shows a second call", "anchors": ["pydantic_xml/serializers/factories/model.py::ModelSerializer.serialize", "pydantic_xml/serializers/factories/model.py::RootModelSerializer.serialize", "pydantic_xml/serializers/factories/model.py::ModelProxySerializer.serialize", "pydantic_xml/serializers/factories/homogeneous.py::ElementSerializer.serialize", "pydantic_xml/serializers/factories/heterogeneous.py::ElementSerializer.serialize", "pydantic_xml/serializers/factories/union.py::ModelSerializer.serialize", "pydantic_xml/serializers/factories/wrapper.py::ElementPathSerializer.serialize"]}
{"id": "C81", "title": "errors are passed on, all of them and nothing else", "statement": "Every line of a ValidationError raised by from_xml is an error pydantic has found in one of the models of the document, or one of a ValidationError a field validator has raised, with its type, input and text (behind a line number) and with a location that leads from the class, by field names, positions and variant titles, to the class it is about; the others report unbound data of a class with extra='forbid'. Without unions no error found is lost: all are reported, once each, in the order in which they were found, and a value is returned only if nothing has failed. With unions the errors of variants of the same title replace each other, and unbound data is not reported while a field of the class has an error.", "quantifier": "every family of classes, every document, every depth and every combination of errors", "why_tests_cant": "every class graph, every combination of faults in a document", "anchors": ["pydantic_xml/utils.py::into_validation_error", "pydantic_xml/utils.py::set_validation_error_sourceline", "pydantic_xml/serializers/factories/model.py::ModelSerializer.deserialize", "pydantic_xml/serializers/factories/model.py::RootModelSerializer.deserialize", "pydantic_xml/serializers/factories/homogeneous.py::ElementSerializer.deserialize", "pydantic_xml/serializers/factories/heterogeneous.py::ElementSerializer.deserialize", "pydantic_xml/serializers/factories/union.py::ModelSerializer.deserialize"]}
{"id": "C82", "title": "a path is a chain of wrappers", "statement": "wrapped('a/b/c', X) and wrapped('a', wrapped('b', wrapped('c', X))) mean the same, for every split of the path, at any depth and in any number of fields, as long as the wrapper declares no prefixes of its own: the same classes are accepted, the others are rejected with the same exception, to_xml writes the same documents or raises the same exceptions, and from_xml reads every document to the same value or to the same error up to line numbers. With prefixes declared by the wrapper the names can differ, and an error can name the line of the outer step instead of the model's.", "quantifier": "every family of classes, every way to split the paths of its wrappers, every document, every instance, every setting of the switches", "why_tests_cant": "every class graph, every path and every nesting", "anchors": ["pydantic_xml/serializers/factories/wrapper.py::ElementPathSerializer.serialize", "pydantic_xml/serializers/factories/wrapper.py::ElementPathSerializer.deserialize", "pydantic_xml/serializers/factories/wrapper.py::ElementPathSerializer.from_core_schema", "pydantic_xml/element/element.py::XmlElement.find_sub_element", "pydantic_xml/element/element.py::XmlElement.find_element_or_create", "pydantic_xml/fields.py::wrapped", "pydantic_xml/serializers/serializer.py::Serializer.Context.parent_ns", "pydantic_xml/serializers/serializer.py::Serializer.Context.parent_nsmap"]}
{"id": "C83", "title": "attributes that no field is bound to do not matter", "statement": "Two documents that differ only in attributes no field asks for, on any elements outside raw elements and in any number, give the same value or the very same error, in every search mode, unless a class forbids extra data or user validators look at them. Fields ask for: the attributes declared with attr(), all attributes of an element bound to a mapping, the discriminator of a union, and xsi:nil on nillable fields and on every sub-model. Together with C39: in ordered mode, a class reads the documents of later versions of a format, which has got new elements and attributes anywhere, as if they were not there.", "quantifier": "every family of classes, every document, every change of unbound attributes (and, in ordered mode, of unknown elements) in any number of steps", "why_tests_cant": "every class graph, every document and every place and number of attributes", "anchors": ["pydantic_xml/element/element.py::XmlElement.pop_attrib", "pydantic_xml/element/element.py::XmlElement.pop_attributes", "pydantic_xml/element/element.py::XmlElement.get_attrib", "pydantic_xml/element/utils.py::is_element_nill", "pydantic_xml/serializers/factories/primitive.py::AttributeSerializer.deserialize", "pydantic_xml/serializers/factories/mapping.py::AttributesSerializer.deserialize", "pydantic_xml/serializers/factories/tagged_union.py::ModelSerializer.deserialize", "pydantic_xml/serializers/factories/model.py::BaseModelSerializer._check_extra"]}
{"id": "C84", "title": "what is read is given by rules", "statement": "What from_xml returns, and the ValidationError or other exception it raises instead, is given by rules that know no cursor, no snapshots and no bound on depth: a document is a page from which fields take things, an element that is found is passed, a field that is missing or a variant that does not fit leaves the page as it was. The rules cover every kind of field, all search modes, unions, discriminated unions, wrappers, raw elements and extra='forbid'; from_xml returns a value if and only if the rules give it, raises a ValidationError if and only if they refuse, with exactly the title and the errors they give (number, order, location, type, text up to line numbers, and input of each, extra inputs included), lets an exception of the user's model validators through if and only if they say so, and the rules give at most one answer. This is for classes without field validators of their own.", "quantifier": "every family of classes without custom field validators, every document, every depth and search mode", "why_tests_cant": "every class graph and every document; a test compares a few documents with a few expected values", "anchors": ["pydantic_xml/element/element.py::XmlElement.pop_element", "pydantic_xml/element/element.py::XmlElement.find_sub_element", "pydantic_xml/element/element.py::XmlElement.step_forward", "pydantic_xml/element/element.py::XmlElement.create_snapshot", "pydantic_xml/element/element.py::XmlElement.apply_snapshot", "pydantic_xml/serializers/factories/model.py::ModelSerializer.deserialize", "pydantic_xml/serializers/factories/model.py::ModelProxySerializer.deserialize", "pydantic_xml/serializers/factories/union.py::ModelSerializer.deserialize", "pydantic_xml/serializers/factories/tagged_union.py::ModelSerializer.deserialize", "pydantic_xml/serializers/factories/wrapper.py::ElementPathSerializer.deserialize", "pydantic_xml/serializers/factories/homogeneous.py::ElementSerializer.deserialize", "pydantic_xml/serializers/factories/heterogeneous.py::ElementSerializer.deserialize", "pydantic_xml/serializers/factories/raw.py::ElementSerializer.deserialize"]}
{"id": "C85", "title": "old classes read what later classes write", "statement": "Classes get new fields, attributes and elements with names of their own, and there may be new classes; a program with the new classes writes a value, and a program that still has the old ones reads the document, in ordered mode. It gets what it would get from the document the old classes write for the same value without the new fields: the same value, or a ValidationError in both cases; if the old classes keep their fields apart, it gets the value without the new fields. This holds at every depth, for new attributes anywhere among the fields and new elements anywhere but before wrapped fields, without skip_empty and without extra='forbid'. It fails otherwise: a new element between two fields below the same wrapper splits the wrapper in two and the old program loses the second field; with skip_empty the element of a sub-model can be there for a new attribute only; in strict mode, the default, a new element hides the old ones behind it.", "quantifier": "every family of classes, every way to add such fields, every value at every depth, both libraries", "why_tests_cant": "every pair of versions of a class graph and every value", "anchors": ["pydantic_xml/serializers/factories/model.py::ModelSerializer.serialize", "pydantic_xml/serializers/factories/model.py::ModelSerializer.deserialize", "pydantic_xml/serializers/factories/model.py::ModelProxySerializer.serialize", "pydantic_xml/serializers/factories/wrapper.py::ElementPathSerializer.serialize", "pydantic_xml/element/element.py::XmlElement.find_element_or_create", "pydantic_xml/element/element.py::XmlElement.pop_element", "pydantic_xml/element/element.py::XmlElement.is_empty", "pydantic_xml/model.py::BaseXmlModel.to_xml_tree", "pydantic_xml/model.py::BaseXmlModel.from_xml_tree"]}
{"id": "C86", "title": "unknown elements at the end do not matter in any search mode", "statement": "A document and the same document with more elements that no field asks for (and comments) behind all other children, of the root or of any elements at any depth outside raw elements, give the same value or the very same error, in strict mode, which is the default, as in the others, and also when classes with different search modes use each other; unless a class forbids extra data or user validators look at these elements. So in strict mode a format may grow at the end: when classes get new fields such that no old field that is written as children stands behind a new one that is, programs with the old classes make of the new documents exactly what they make of the old ones, and get the value without the new fields if the old classes keep their fields apart.", "quantifier": "every family of classes with any search modes, every document, every number and place of trailing elements, every way to append fields, every value", "why_tests_cant": "every class graph, every document and every pair of versions", "anchors": ["pydantic_xml/element/element.py::XmlElement.pop_element", "pydantic_xml/element/element.py::XmlElement.find_sub_element", "pydantic_xml/element/element.py::XmlElement.step_forward", "pydantic_xml/serializers/factories/model.py::ModelSerializer.deserialize", "pydantic_xml/serializers/factories/model.py::ModelProxySerializer.deserialize", "pydantic_xml/serializers/factories/homogeneous.py::ElementSerializer.deserialize", "pydantic_xml/serializers/factories/heterogeneous.py::ElementSerializer.deserialize", "pydantic_xml/serializers/factories/wrapper.py::ElementPathSerializer.deserialize", "pydantic_xml/serializers/factories/union.py::ModelSerializer.deserialize", "pydantic_xml/serializers/factories/model.py::ModelSerializer.serialize", "pydantic_xml/element/element.py::SearchMode"]}
{"id": "C87", "title": "Python names do not matter", "statement": "Renaming classes and fields while their XML names stay the same changes nothing in XML. Declarations that differ in Python names only (classes that keep their tags, fields whose XML name is given by a tag, an attribute name, an alias or the tags of the classes they hold) are built into the same classes up to renaming, or rejected with the same exception; to_xml writes the same document for the renamed value, or raises the same exception; from_xml returns the renamed value, or raises the same exception: a ValidationError with as many errors, of the same types and texts, at the renamed places. Line numbers are the exception: they are looked up by field names across nested models, so renaming a field of an inner class can change the line named for a field of an outer one. A field whose XML name is its Python name changes the document when it is renamed.", "quantifier": "every family of classes, every one-to-one renaming of classes and fields, every document, every value, every setting of the switches", "why_tests_cant": "every class graph and every renaming", "anchors": ["pydantic_xml/serializers/serializer.py::Serializer.parse_core_schema", "pydantic_xml/serializers/serializer.py::Serializer.preprocess_schema", "pydantic_xml/serializers/serializer.py::Serializer.Context", "pydantic_xml/serializers/factories/model.py::ModelSerializer.from_core_schema", "pydantic_xml/serializers/factories/model.py::ModelProxySerializer.from_core_schema", "pydantic_xml/serializers/factories/model.py::ModelSerializer.serialize", "pydantic_xml/serializers/factories/model.py::ModelSerializer.deserialize", "pydantic_xml/serializers/factories/model.py::RootModelSerializer.deserialize", "pydantic_xml/serializers/factories/tagged_union.py::ModelSerializer.deserialize", "pydantic_xml/serializers/factories/union.py::ModelSerializer.deserialize", "pydantic_xml/serializers/factories/primitive.py::ElementSerializer.from_core_schema", "pydantic_xml/serializers/factories/wrapper.py::ElementPathSerializer.from_core_schema", "pydantic_xml/utils.py::set_validation_error_sourceline"]}
{"id": "C88", "title": "only what the fields hold gets into a document", "statement": "Two instances of a class whose fields hold the same, at every depth, are written by to_xml as the same document, or raise the same exception. Nothing else about them matters: attributes no field is bound to (private ones, fields marked NoXml), fields excluded from serialization, with exclude_unset the fields that are not set, the order of attributes, the Python type of a value with the same JSON encoding and, where a field is declared with a class, the class of the instance it holds: an instance of a subclass is written as its base class declares, what the subclass adds is not written. In a union of models the class does matter: an instance of a subclass of a variant is not written at all, without an exception. User serializers see the whole instance and must give the same for both.", "quantifier": "every family of classes, every two instances that agree in what their fields hold, every depth, every setting of the switches", "why_tests_cant": "every class graph and every pair of values", "anchors": ["pydantic_xml/serializers/factories/model.py::ModelSerializer.serialize", "pydantic_xml/serializers/factories/model.py::RootModelSerializer.serialize", "pydantic_xml/serializers/factories/model.py::ModelProxySerializer.serialize", "pydantic_xml/serializers/factories/union.py::ModelSerializer.serialize", "pydantic_xml/serializers/factories/tagged_union.py::ModelSerializer.serialize", "pydantic_xml/serializers/factories/primitive.py::TextSerializer.serialize", "pydantic_xml/serializers/factories/primitive.py::AttributeSerializer.serialize", "pydantic_xml/serializers/factories/mapping.py::AttributesSerializer.serialize", "pydantic_xml/serializers/factories/homogeneous.py::ElementSerializer.serialize", "pydantic_xml/serializers/factories/heterogeneous.py::ElementSerializer.serialize", "pydantic_xml/model.py::BaseXmlModel.to_xml_tree"]}
{"id": "C89", "title": "attributes and text may be declared anywhere among the elements", "statement": "Whether a field bound to an attribute, to all attributes or to the text is declared before, between or behind the fields bound to sub-elements does not matter, in any number of classes at any depth and in every search mode, if the fields of each of the two kinds keep their order and have no validators or serializers of their own. from_xml gives the same value, up to the order of the attributes of instances, or a ValidationError with the same errors, up to their order and the line numbers in messages, or the same other exception; to_xml gives the same documents. The order does matter between fields bound to different sub-elements (in strict and ordered mode) and between an attribute and a mapping of all attributes, which takes what is left when its turn comes; and the line number an error names can change.", "quantifier": "every family of classes, every way to move such fields in any number of classes, every document, every value", "why_tests_cant": "every class graph, every rearrangement and every document", "anchors": ["pydantic_xml/serializers/factories/model.py::ModelSerializer.serialize", "pydantic_xml/serializers/factories/model.py::ModelSerializer.deserialize", "pydantic_xml/serializers/factories/primitive.py::TextSerializer.deserialize", "pydantic_xml/serializers/factories/primitive.py::AttributeSerializer.deserialize", "pydantic_xml/serializers/factories/mapping.py::AttributesSerializer.deserialize", "pydantic_xml/serializers/factories/primitive.py::ElementSerializer.deserialize", "pydantic_xml/element/element.py::XmlElement.pop_text", "pydantic_xml/element/element.py::XmlElement.pop_attrib", "pydantic_xml/element/element.py::XmlElement.pop_attributes", "pydantic_xml/element/element.py::XmlElement.pop_element", "pydantic_xml/element/element.py::XmlElement.append_element", "pydantic_xml/utils.py::set_validation_error_sourceline"]}
{"id": "C90", "title": "values that survive a round trip can be told apart by their documents", "statement": "If two values of a class are of the kind from_xml gives back unchanged (C20), and they are different, at any depth, then to_xml_tree writes different documents for them, and to_xml different texts if printer and parser are faithful to each other. If the documents are the same then from_xml gives back the same data for both, whatever switches they were written with. Values that are not given back can be written alike: None and the empty string are.", "quantifier": "every family of classes that keep their fields apart, every two values of a class, every depth, every setting of the switches, both libraries", "why_tests_cant": "every pair of values of unbounded size", "anchors": ["pydantic_xml/model.py::BaseXmlModel.to_xml_tree", "pydantic_xml/model.py::BaseXmlModel.to_xml", "pydantic_xml/model.py::BaseXmlModel.from_xml_tree", "pydantic_xml/serializers/factories/model.py::ModelSerializer.serialize", "pydantic_xml/serializers/factories/model.py::ModelSerializer.deserialize", "pydantic_xml/element/utils.py::is_element_nill"]}
{"id": "C91", "title": "in unordered mode fields may be declared in any order", "statement": "Two classes that differ only in the order in which their fields are declared, in unordered search mode, read the same documents to the same values, up to the order of the attributes of the instance, and refuse the same documents, whether extra data is forbidden or not; if no two fields are bound to the same attribute, the text or the same element name, no field is bound to all attributes, the classes have no field validators of their own and no element name a field looks for occurs more than once in the root element. The condition on names is needed: a field that is found behind the elements of a list changes places with one of them, so that a list declared behind it is read in another order than one declared before it. In strict and ordered mode the order of declaration matters.", "quantifier": "every class and every permutation of its fields, of every kind, every document in which the names of fields do not repeat, sub-elements of any content and depth", "why_tests_cant": "every class, every permutation of its fields and every document", "anchors": ["pydantic_xml/element/element.py::XmlElement.pop_element", "pydantic_xml/element/element.py::XmlElement.find_sub_element", "pydantic_xml/element/element.py::unordered_search", "pydantic_xml/element/element.py::SearchMode", "pydantic_xml/serializers/factories/model.py::ModelSerializer.deserialize", "pydantic_xml/serializers/factories/wrapper.py::ElementPathSerializer.deserialize", "pydantic_xml/serializers/factories/union.py::ModelSerializer.deserialize", "pydantic_xml/serializers/factories/homogeneous.py::ElementSerializer.deserialize", "pydantic_xml/serializers/factories/heterogeneous.py::ElementSerializer.deserialize", "pydantic_xml/serializers/factories/model.py::BaseModelSerializer._check_extra"]}
{"id": "C92", "title": "when the order of the members of a union does not matter", "statement": "Union[A, B] and Union[B, A] mean the same in strict mode if the element names of the members are different: from_xml gives the same value, the very same ValidationError, line numbers included, or the same other exception for every document, in any number of fields and classes, also inside lists, tuples, wrappers and sub-models, with user validators and with extra='forbid'. The order of the members of a discriminated union does not matter in strict mode, nor in the others if all members have the same element name. to_xml writes the same documents or raises the same exceptions in every mode, if the members of a union have different classes. With equal names the first member that fits is taken, and in ordered and unordered mode the first whose element is anywhere ahead, so that the order matters. Pydantic is taken to validate the same for both orders.", "quantifier": "every family of classes, every reordering of the members of any such unions at any place, every document, every value, every setting of the switches", "why_tests_cant": "every class graph, every reordering and every document", "anchors": ["pydantic_xml/serializers/factories/union.py::ModelSerializer.deserialize", "pydantic_xml/serializers/factories/union.py::ModelSerializer.serialize", "pydantic_xml/serializers/factories/tagged_union.py::ModelSerializer.deserialize", "pydantic_xml/serializers/factories/tagged_union.py::ModelSerializer.serialize", "pydantic_xml/serializers/factories/model.py::ModelProxySerializer.deserialize", "pydantic_xml/element/element.py::XmlElement.create_snapshot", "pydantic_xml/element/element.py::XmlElement.apply_snapshot", "pydantic_xml/element/element.py::strict_search", "pydantic_xml/element/element.py::unordered_search"]}
{"id": "C93", "title": "a field may become a list", "statement": "If a class turns fields bound to one element each (scalars, mappings, raw elements, sub-models) from x: T into x: List[T], every document in which the root has at most one child by the name of each such field means the same to the new class as to the old: from_xml gives an instance for the one exactly if it does for the other, with a list of the one value where the value was; it raises a ValidationError with the same errors in the same order for both, but locations inside of such a field get the place 0 behind the name of the field; or it raises the same exception of user code for both. This holds in every search mode, with extra data forbidden or not, for absent elements too. Writing, an instance of the new class with a list of one value in such a field gives the same document as an instance of the old class with the value, with every setting of the switches; but None, which the old class may write as an empty element, is not written by the new class. If the name occurs twice the old class passes the second element over and the new class reads it.", "quantifier": "every class without field validators of its own, every choice of its fields, every search mode, every document in which those names do not repeat, sub-elements of any content and depth; every instance and every setting of the switches", "why_tests_cant": "every class, every set of fields and every document", "anchors": ["pydantic_xml/serializers/factories/homogeneous.py::ElementSerializer.deserialize", "pydantic_xml/serializers/factories/homogeneous.py::ElementSerializer.serialize", "pydantic_xml/serializers/factories/model.py::ModelSerializer.serialize", "pydantic_xml/serializers/factories/model.py::ModelSerializer.deserialize", "pydantic_xml/serializers/factories/model.py::ModelProxySerializer.deserialize", "pydantic_xml/serializers/factories/primitive.py::ElementSerializer.deserialize", "pydantic_xml/serializers/factories/mapping.py::ElementSerializer.deserialize", "pydantic_xml/serializers/factories/raw.py::ElementSerializer.deserialize", "pydantic_xml/element/element.py::XmlElement.pop_element", "pydantic_xml/element/element.py::XmlElement.find_sub_element", "pydantic_xml/serializers/factories/model.py::BaseModelSerializer._check_extra"]}
{"id": "C94", "title": "a union may get more members", "statement": "If members are added to unions of models or to discriminated unions, anywhere among the members they have and in any number of fields and classes, also inside lists, tuples, wrappers and sub-models, then from_xml gives the same as before for every document in which no element is called like one of the new members: the same value, the same errors of a ValidationError in the same order and with the same locations, or the same exception of user code, in every search mode and with extra data forbidden or not. The same holds for members that are removed. to_xml writes the same document for every value with no instance of the added or removed members of unions of models anywhere in it. Documents with such elements may be read otherwise: a list goes on where it ended before.", "quantifier": "every family of classes without field validators of their own, every choice of members to add or remove, every document without the names of their elements, of any depth, every search mode; every value without instances of them, every setting of the switches", "why_tests_cant": "every class graph, every change of its unions and every document", "anchors": ["pydantic_xml/serializers/factories/union.py::ModelSerializer.deserialize", "pydantic_xml/serializers/factories/union.py::ModelSerializer.serialize", "pydantic_xml/serializers/factories/tagged_union.py::ModelSerializer.deserialize", "pydantic_xml/serializers/factories/model.py::ModelProxySerializer.deserialize", "pydantic_xml/serializers/factories/homogeneous.py::ElementSerializer.deserialize", "pydantic_xml/element/element.py::XmlElement.create_snapshot", "pydantic_xml/element/element.py::XmlElement.apply_snapshot", "pydantic_xml/element/element.py::XmlElement.pop_element", "pydantic_xml/element/element.py::XmlElement.find_sub_element"]}
{"id": "C95", "title": "a sub-model may become a union", "statement": "If a class turns sub-models, as fields, as items of lists, at places of tuples or inside wrappers, from T into a union with T as the only member so far, then for every document in which no element of these sub-models is marked with xsi:nil from_xml gives a value with the new class if and only if it gives this value with the old class, in every search mode and with extra data forbidden or not. An element marked with xsi:nil is passed by the sub-model and not by the union, and a ValidationError has the name of the member in the locations of errors inside of it. to_xml writes the same document for instances of both classes with the same values, with every setting of the switches, if the values of these sub-models are instances of that very class, or None where None is not written as a nil element; an instance of a class derived from it is left out by the union.", "quantifier": "every class without field validators of its own, every choice of the sub-models, every search mode, every document without nil elements by their names; every instance with such values, every setting of the switches", "why_tests_cant": "every class, every choice of fields and every document", "anchors": ["pydantic_xml/serializers/factories/union.py::ModelSerializer.deserialize", "pydantic_xml/serializers/factories/union.py::ModelSerializer.serialize", "pydantic_xml/serializers/factories/model.py::ModelProxySerializer.deserialize", "pydantic_xml/serializers/factories/model.py::ModelProxySerializer.serialize", "pydantic_xml/serializers/factories/model.py::ModelSerializer.deserialize", "pydantic_xml/serializers/factories/homogeneous.py::ElementSerializer.deserialize", "pydantic_xml/serializers/factories/heterogeneous.py::ElementSerializer.deserialize", "pydantic_xml/serializers/factories/wrapper.py::ElementPathSerializer.deserialize", "pydantic_xml/element/element.py::XmlElement.create_snapshot", "pydantic_xml/element/element.py::XmlElement.apply_snapshot", "pydantic_xml/element/element.py::XmlElement.pop_element"]}
{"id": "C96", "title": "what was accepted stays accepted when classes accept more", "statement": "If classes change so that pydantic accepts all the data it accepted before, with the same result, and maybe more (a required field becomes optional, a constraint is dropped), and some no longer forbid extra data, then every document from_xml gave a value for still gives the same value, in every search mode, if no class has a union of models that is not discriminated. With such a union a member that accepts more may take the place of one behind it.", "quantifier": "every family of classes without undiscriminated unions and without field validators of their own, every such change in any number of them, every document, every search mode", "why_tests_cant": "every class graph, every validator and every document", "anchors": ["pydantic_xml/serializers/factories/model.py::ModelSerializer.deserialize", "pydantic_xml/serializers/factories/model.py::BaseModelSerializer._check_extra", "pydantic_xml/serializers/factories/model.py::ModelProxySerializer.deserialize", "pydantic_xml/serializers/factories/homogeneous.py::ElementSerializer.deserialize", "pydantic_xml/serializers/factories/heterogeneous.py::ElementSerializer.deserialize", "pydantic_xml/serializers/factories/wrapper.py::ElementPathSerializer.deserialize", "pydantic_xml/serializers/factories/tagged_union.py::ModelSerializer.deserialize", "pydantic_xml/serializers/factories/union.py::ModelSerializer.deserialize"]}
