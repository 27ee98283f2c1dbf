*.aux
*.cache
*.d
*.glob
*.vo
*.vok
*.vos
.Makefile.d
.coq-native
.lia.cache
.nra.cache
Makefile
Makefile*
Makefile.conf
