S16c 19
S16b 20
T13b 7
R27c 1
R27b 2
R27e 1
R27d 1
R27f 3
R32b 6
CT7b 1
S51b 8
S51c 7
S54b 6
FO1 7
FO3 7
FO2 6
FO4 7
FO5 7
FO6 1
FO7 1
FO8 7
FO9 2
AL1 4
AL2 3
AL3 4
FO10 10
AL4 4
AL5 3
AL6 3
XL1 1
