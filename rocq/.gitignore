*.vo
*.vok
*.vos
*.glob
.*.aux
*.cache
.lia.cache
.nia.cache
Makefile
Makefile.conf
.Makefile.d
