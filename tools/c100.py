from addp import add
add("C100","Types that grow","When enums get more variants (anywhere in the list, with indices that were free) and missing types appear, whatever the old registry could decode the new one decodes to the same value. What the new registry decodes the old one decodes to the same value or refuses, never to another: for an unknown variant index, and then a new variant is in the data, or for an unknown type. Values that do not mention a new variant are encoded alike by both (same bytes, same errors), and decoded alike whichever wrote them. A value that mentions a new variant can be encoded by both, differently (refuted).",
 "all registries and successors, types, bytes, values and outputs","metadata upgrades add variants to arbitrary enums in arbitrary registries; tests fix one registry",
 ["src/scale_impls/decode.rs:decode_value_as_type","src/scale_impls/encode.rs:encode_variant","src/scale_impls/encode.rs:encode_composite"],
 "scale-encode and scale-decode are modelled; the tracing decoder follows by C30",
 """* C100 (`Props_Growth.v`, `Spec_Growth.v`, `GrowthFacts.v`): growth of a registry as a relation on answers; decoding by induction on the fuel with a relation between
  the two results (same, or refused with a new variant in the data), encoding by induction on the value with pointwise equal encoders.
""",[])
