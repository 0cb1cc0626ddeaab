*.vo
*.vok
*.vos
*.glob
*.aux
.lia.cache
.nia.cache
.*.aux
Makefile
Makefile.conf
.Makefile.d
*.cache
