from addp import add
add("C112","Parts of Rust data in its value","For data x with a part y reached through fields, map entries, list and tuple positions, newtypes, options and enum variants: in the value made of x with to_value, at_path with those names and positions finds exactly the value made of y, and it can be read on its own with from_value. Replacing the value found there by the value of other data of the part's type gives the value of the changed x, and from_value reads the changed x from it. (Parts inside data that is itself a Value are found elsewhere, since to_value writes variants as maps.)",
 "all types of the serde universe with distinct names, all data, all paths to parts, all replacements","tests look up one field of one small struct; that names and positions of Rust data and of its value agree at any depth, and that nothing else changes on replacement, needs an induction over types",
 ["src/at.rs:at","src/lib.rs:to_value","src/lib.rs:from_value","src/serde_impls/serializer.rs"],
 "paths do not go into byte buffers, Value, Composite, Variant and Primitive fields; reading back the changed data as the same type needs a type that round trips (C40) or fits itself (C95)",
 """* C112 (`Spec_Places.v`, `PlacesFacts.v`, `Props_Places.v`): induction on the path over the rules of C94: each step of the data is a step of its value, and the rules hold again after a replacement; C02 for `at`, C40 and C95 for reading.
""",[])
