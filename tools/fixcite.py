import re
base='/verif/rocq/theories/'
def sub(f,pairs):
    s=open(base+f).read()
    for a,b in pairs:
        n=s.count(a)
        if n==0: print("MISSING",f,a)
        s=s.replace(a,b)
    open(base+f,'w').write(s)
sub('Value.v',[
("value_type.rs:361-379","value_type.rs:388-403"),("value_type.rs:212-218","value_type.rs:214-219"),
("value_type.rs:169-179; [Variant<T>] (317-323)","value_type.rs:172-181; [Variant<T>] (340-345)"),
("value_type.rs:28-34","value_type.rs:29-34"),("value_type.rs:247-252 (and [into_values], 255-260)","value_type.rs:249-254 (and [into_values], 257-262)"),
("value_type.rs:231-236","value_type.rs:233-238"),("value_type.rs:239-244","value_type.rs:241-246"),
("value_type.rs:125-130 (Value), 183-193 (ValueDef), 263-283 (Composite), 345-350 (Variant)","value_type.rs:127-132 (Value), 185-195 (ValueDef), 265-284 (Composite), 366-371 (Variant)"),
("value_type.rs:121-123","value_type.rs:123-125"),("value_type.rs:36-112","value_type.rs:36-115"),
("value_type.rs:445-482","value_type.rs:457-498"),("value_type.rs:131-165 and 390-424","value_type.rs:134-167 and 415-448"),
("at.rs:151-161","at.rs:152-160"),("at.rs:73-91","at.rs:75-93"),("at.rs:93-97","at.rs:95-99"),("at.rs:99-107","at.rs:101-109"),("at.rs:109-113","at.rs:111-115"),
("at.rs:78 [find_map]","at.rs:80 [find_map]"),
])
sub('Parse.v',[
("from_string.rs:70-206","from_string.rs:70-218"),("from_string.rs:68-78","from_string.rs:70-78"),("from_string.rs:103-121","from_string.rs:104-123"),
("from_string.rs:589-591","from_string.rs:588-590"),("from_string.rs:594-599","from_string.rs:593-598"),
("from_string.rs:376-384","from_string.rs:386-394"),("from_string.rs:387-417","from_string.rs:397-426"),
("from_string.rs:477-514","from_string.rs:487-524"),("from_string.rs:469-517","from_string.rs:479-527"),
("from_string.rs:430-439","from_string.rs:438-448"),("line 440","line 449"),("from_string.rs:420-466","from_string.rs:429-476"),
("from_string.rs:355-373","from_string.rs:366-383"),("from_string.rs:574-586","from_string.rs:575-585"),
("from_string.rs:534-545","from_string.rs:543-554"),("from_string.rs:551-563","from_string.rs:560-572"),
("from_string.rs:520-530","from_string.rs:530-540"),("from_string.rs:275-302","from_string.rs:285-312"),
("from_string.rs:305-329","from_string.rs:315-339"),("from_string.rs:332-352","from_string.rs:342-363"),
("from_string.rs:250-266","from_string.rs:259-277"),("from_string.rs:212-245","from_string.rs:226-254"),
("from_string.rs:230-232","from_string.rs:238-240"),("from_string.rs:209-267","from_string.rs:222-277"),("from_string.rs:59-64","from_string.rs:60-65"),
("[stringify::from_str], lib.rs","[stringify::from_str], lib.rs:365-367"),
])
sub('Fmt.v',[
("to_string.rs:347-356","to_string.rs:355-362"),("to_string.rs:559-577","to_string.rs:560-576"),("to_string.rs:24-48","to_string.rs:23-32"),
("to_string.rs:256-263","to_string.rs:261-268"),("to_string.rs:322-328","to_string.rs:329-335"),("to_string.rs:266-279","to_string.rs:271-284"),
("to_string.rs:330-342","to_string.rs:337-349"),("to_string.rs:280-302","to_string.rs:285-307"),("to_string.rs:515-527","to_string.rs:519-531"),
("to_string.rs:529-539","to_string.rs:533-543"),("to_string.rs:541-557","to_string.rs:545-557"),("to_string.rs:497-513","to_string.rs:502-517"),
("to_string.rs:449-494","to_string.rs:448-500"),("to_string.rs:430-447","to_string.rs:430-446"),("to_string.rs:310-318","to_string.rs:318-326"),
("to_string.rs:408-412","to_string.rs:408-411 and 311-317"),("to_string.rs:238-241","to_string.rs:244-258"),("to_string.rs:33-42","to_string.rs:35-43"),
("to_string.rs:359-378","to_string.rs:365-377"),("custom_formatters/hex.rs:43-78","custom_formatters/hex.rs:44-78"),
])
