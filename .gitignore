.lia.cache
.nia.cache
.*.aux
